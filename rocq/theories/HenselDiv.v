(** * Division modulo m and one Hensel step. *)
From Verif Require Import Prelude Coef Spec SpecProofs SpecOps SpecOpsProofs GcdDom GcdPoly GcdMath GcdProofs OrderSpec PairVec PairVecProofs MonoStruct MonoStructProofs Heap Poly PolyMulProofs Div PolyDivProofs
  PolyOps PolyOpsProofs ConvertProofs Zp NumSpec ZpProofs DenseSparse UGcd ExtGcd FactorZp Hensel HenselMath HenselBase.
From mathcomp Require Import all_ssreflect all_algebra all_field ssrZ.
Import GRing.Theory.
Set Implicit Arguments.
Unset Strict Implicit.
Local Open Scope ring_scope.
Delimit Scope Z_scope with CZ.
Notation PZ := {poly Z}.
Notation unz := (normal uok (m_gt uniS) Zc).
Definition good (N : Z) (l : upz) : Prop := unz l /\ forall t, List.In t l -> (fst t < N)%CZ.
Lemma good_nil N : good N [::]. Proof. split=> //. exact: n_nil. Qed.
Lemma good_weak N N' l : good N l -> (N <= N')%CZ -> good N' l.
Proof. move=> [A B] L. split=> // t Ht. have := B _ Ht. clear -L. lia. Qed.
Lemma good_tl N e c l : good N ((e, c) :: l) -> [/\ good e l, (0 <= e < N)%CZ & c <> 0%CZ].
Proof.
move=> [A B]. have [/= H1 H2] := n_in A (or_introl erefl). have /= H3 := B _ (or_introl erefl). split=> //.
split; first exact: n_tl A. move=> t Ht. have := n_head A Ht. clear. lia.
Qed.
Lemma keep_good N e x l : (0 <= e < N)%CZ -> good e l -> good N (keep e x ++ l) /\ T (keep e x ++ l) = x *: 'X^(Z.to_nat e) + T l.
Proof.
move=> He [A B]. rewrite /keep. case: Z.eqb_spec => Hx.
- split; last by rewrite Hx scale0r add0r. split=> // t Ht. have := B _ Ht. clear -He. rewrite /=. lia.
- split; last by rewrite T_cons. split; first by apply: n_cons => //; clear -He; lia.
  move=> t [<-|Ht] /=; first by clear -He; lia. have := B _ Ht. clear -He. lia.
Qed.
Lemma mod_div a m : (m <> 0)%CZ -> (m | a mod m - a)%CZ.
Proof. move=> H. exists (- (a / m))%CZ. have := Z.div_mod a m H. clear. lia. Qed.
Lemma neg_aux (m a b c d e A k : Z) : (A - (m - c) = k * m)%CZ -> (a = m * d + b)%CZ -> (b = m * e + c)%CZ -> (A - - a = (k + 1 + d + e) * m)%CZ.
Proof. move=> H1 H2 H3. have -> : A = (k * m + (m - c))%CZ by move: H1; clear; lia. rewrite H2 H3. clear. lia. Qed.
Lemma neg_div a m : (m <> 0)%CZ -> (m | ((m - Z.rem (Z.rem a m) m) mod m) - - a)%CZ.
Proof.
move=> H. have [k Hk] := mod_div (m - Z.rem (Z.rem a m) m)%CZ H. have E1 := Z.quot_rem' a m. have E2 := Z.quot_rem' (Z.rem a m) m.
exact: (ex_intro _ _ (neg_aux Hk E1 E2)).
Qed.
Lemma XdT d e (cg : Z) (g : upz) : (0 <= d)%CZ -> (0 <= e)%CZ -> 'X^(Z.to_nat d) * T ((e, cg) :: g) = cg *: 'X^(Z.to_nat (e + d)) + 'X^(Z.to_nat d) * T g.
Proof. move=> H1 H2. rewrite T_cons mulrDr -scalerAr -exprD. congr (_ *: 'X^_ + _). rewrite -plusE. clear -H1 H2. lia. Qed.
Lemma sub_mul_ok m c d : (0 < m)%CZ -> (0 <= d)%CZ -> forall (r g : upz) N, good N r -> good (N - d)%CZ g ->
  good N (sub_mul m c d r g) /\ cgz m (T (sub_mul m c d r g)) (T r - c *: ('X^(Z.to_nat d) * T g)).
Proof.
move=> m0 d0. have mn0 : (m <> 0)%CZ by clear -m0; lia.
have NE a P : cgz m (((m - Z.rem (Z.rem a m) m) mod m)%CZ *: P) (- (a *: P)).
  rewrite -scaleNr. apply: cgz_scale. exact: neg_div.
have ME a P : cgz m ((a mod m)%CZ *: P) (a *: P) by apply: cgz_scale; exact: mod_div.
elim=> [|[er cr] r IHr].
- elim=> [|[eg cg] g IHg] N Gr Gg.
  + split; first exact: good_nil. rewrite /= T_nil mulr0 scaler0 subr0. exact: cgz_refl.
  + have [Gg' He Hc] := good_tl Gg. have X : (0 <= eg + d < N)%CZ by clear -He d0; lia.
    have [] := IHg (eg + d)%CZ (good_nil _); first by apply: good_weak Gg' _; clear; lia.
    move=> G1 E1. have [G2 E2] := keep_good ((m - Z.rem (Z.rem (c * cg) m) m) mod m)%CZ X G1.
    split=> //. change (sub_mul m c d [::] ((eg, cg) :: g)) with (keep (eg + d) ((m - Z.rem (Z.rem (c * cg) m) m) mod m) ++ sub_mul m c d [::] g).
    rewrite E2 XdT //; last by clear -He; lia. apply: (cgz_trans (cgz_add (NE _ _) E1)).
    rewrite T_nil !sub0r scalerDr scalerA opprD. exact: cgz_refl.
- have [H0 [H1 H2]] : True /\ True /\ True by []. clear H0 H1 H2.
  elim=> [|[eg cg] g IHg] N Gr Gg.
  + have [Gr' He Hc] := good_tl Gr. have [G1 E1] := IHr [::] er Gr' (good_nil _).
    have [G2 E2] := keep_good (cr mod m)%CZ He G1. split=> //.
    change (sub_mul m c d ((er, cr) :: r) [::]) with (keep er (cr mod m) ++ sub_mul m c d r [::]).
    rewrite E2 T_cons. rewrite -addrA. exact: cgz_add.
  + have [Gr' He Hc] := good_tl Gr. have [Gg' He' Hc'] := good_tl Gg.
    have U : sub_mul m c d ((er, cr) :: r) ((eg, cg) :: g) =
      (if (eg + d <? er)%CZ then keep er (cr mod m) ++ sub_mul m c d r ((eg, cg) :: g)
        else if (er <? eg + d)%CZ then keep (eg + d) ((m - Z.rem (Z.rem (c * cg) m) m) mod m) ++ sub_mul m c d ((er, cr) :: r) g
        else keep er ((cr - c * cg) mod m) ++ sub_mul m c d r g) by [].
    rewrite U. case: Z.ltb_spec => L1; last case: Z.ltb_spec => L2.
    * have [] := IHr ((eg, cg) :: g) er Gr'.
        split; first by case: Gg. move=> t [<-|Ht] /=; first by clear -L1; lia. have := (proj2 Gg') _ Ht. clear -L1. lia.
      move=> G1 E1. have [G2 E2] := keep_good (cr mod m)%CZ He G1. split=> //. rewrite E2 (T_cons er cr) -addrA. exact: cgz_add.
    * have X : (0 <= eg + d < N)%CZ by clear -He' d0; lia.
      have [] := IHg (eg + d)%CZ.
        split; first by case: Gr. move=> t [<-|Ht] /=; first by clear -L2; lia. have := (proj2 Gr') _ Ht. clear -L2. lia.
        apply: good_weak Gg' _; clear; lia.
      move=> G1 E1. have [G2 E2] := keep_good ((m - Z.rem (Z.rem (c * cg) m) m) mod m)%CZ X G1. split=> //.
      rewrite E2 XdT //; last by clear -He'; lia. apply: (cgz_trans (cgz_add (NE _ _) E1)).
      rewrite scalerDr scalerA opprD addrCA. exact: cgz_refl.
    * have X : er = (eg + d)%CZ by clear -L1 L2; lia.
      have [] := IHr g er Gr'; first by apply: good_weak Gg' _; clear -X; lia.
      move=> G1 E1. have [G2 E2] := keep_good ((cr - c * cg) mod m)%CZ He G1. split=> //.
      rewrite E2 XdT //; last by clear -He'; lia. apply: (cgz_trans (cgz_add (ME _ _) E1)).
      rewrite T_cons -X scalerDr scalerA opprD. change (cr - c * cg)%CZ with (cr - c * cg). rewrite scalerBl addrACA. exact: cgz_refl.
Qed.
(** ** The division loop *)
Lemma n_snoc (q : upz) d c : unz q -> (forall t, List.In t q -> (d < fst t)%CZ) -> (0 <= d)%CZ -> c <> 0%CZ -> unz (q ++ [:: (d, c)]).
Proof.
elim: q => [|[e x] q IH] N H Hd Hc; first by apply: n_cons => //; exact: n_nil.
have [/= He Hx] := n_in N (or_introl erefl). apply: n_cons => //; last by apply: IH => //; [exact: n_tl N|move=> t Ht; apply: H; right].
move=> t /List.in_app_iff[Ht|[<-|//]] /=; first by have := n_head N Ht; clear; lia.
exact: (H (e, x) (or_introl erefl)).
Qed.
Lemma divmod_loop_ok m inv (eg cl : Z) (g' : upz) : (1 < m)%CZ -> unz ((eg, cl) :: g') -> (m | cl * inv - 1)%CZ ->
  forall n (q r : upz), unz q -> unz r -> (forall t, List.In t r -> (fst t < Z.of_nat n)%CZ) ->
    (forall t u, List.In t q -> List.In u r -> (fst u - eg < fst t)%CZ) ->
  exists q' r', [/\ divmod_loop n m inv ((eg, cl) :: g') q r = Ok (q', r'), unz q', unz r',
    cgz m (T q * T ((eg, cl) :: g') + T r) (T q' * T ((eg, cl) :: g') + T r') & forall t, List.In t r' -> (fst t < eg)%CZ].
Proof.
move=> m1 Ng Hinv. set g := (eg, cl) :: g'. have [/= Heg Hcl] := n_in Ng (or_introl erefl). have mn0 : (m <> 0)%CZ by clear -m1; lia.
elim=> [|n IH] q r Nq Nr Hn Hs.
- case: r Nr Hn Hs => [|[er cr] r] Nr Hn Hs; first by exists q, [::]; split=> //; exact: cgz_refl.
  have := Hn _ (or_introl erefl). have [/= H _] := n_in Nr (or_introl erefl). clear -H. lia.
- case: r Nr Hn Hs => [|[er cr] r] Nr Hn Hs; first by exists q, [::]; split=> //; exact: cgz_refl.
  have [/= Her Hcr] := n_in Nr (or_introl erefl). have Nr' := n_tl Nr.
  case: Z.leb_spec => L; last first.
    exists q, ((er, cr) :: r). split=> //; first exact: cgz_refl. move=> t [<-|Ht] //=. have := n_head Nr Ht. clear -L. lia.
  have Hn' : forall t, List.In t r -> (fst t < Z.of_nat n)%CZ.
    move=> t Ht. have := n_head Nr Ht. have /= := Hn _ (or_introl erefl). clear. lia.
  have [k Ek] := Hinv. have [j Ej] := mod_div (cr * inv)%CZ mn0. move: Ej. set c := ((cr * inv) mod m)%CZ. move=> Ej.
  have Dc : (m | cr - c * cl)%CZ.
    exists (- j * cl - k * cr)%CZ. have -> : c = (cr * inv + j * m)%CZ by move: Ej; clear; lia.
    have E2 : (cr - (cr * inv + j * m) * cl = cr - cr * (cl * inv) - j * m * cl)%CZ by clear; lia.
    rewrite E2. have -> : (cl * inv = 1 + k * m)%CZ by move: Ek; clear; lia. clear. lia.
  case: Z.eqb_spec => Hc.
  + have [|q' [r' [E1 N1 N2 E2 H2]]] := IH q r Nq Nr' Hn'; first by move=> t u Ht Hu; apply: (Hs t u Ht (or_intror Hu)).
    exists q', r'. split=> //. apply: cgz_trans E2. apply: cgz_add; first exact: cgz_refl.
    rewrite T_cons -[X in cgz _ _ X]add0r. apply: cgz_add; last exact: cgz_refl.
    rewrite -(scale0r 'X^(Z.to_nat er)). apply: cgz_scale. move: Dc. by rewrite Hc Z.mul_0_l.
  + have Hd : (0 <= er - eg)%CZ by clear -L; lia.
    have Gr : good er r by have [] := @good_tl (er + 1)%CZ er cr r; [split=> // t [<-|Ht] /=; [clear; lia|have := n_head Nr Ht; clear; lia]|].
    have Gg : good (er - (er - eg))%CZ g'.
      have [] := @good_tl (eg + 1)%CZ eg cl g'; [split=> // t [<-|Ht] /=; [clear; lia|have := n_head Ng Ht; clear; lia]|].
      move=> G _ _. apply: good_weak G _. clear; lia.
    have [[N1 H1] E1] := @sub_mul_ok m c (er - eg)%CZ (Z.lt_trans _ _ _ Z.lt_0_1 m1) Hd r g' er Gr Gg.
    have Nq' : unz (q ++ [:: (er - eg, c)%CZ]).
      apply: n_snoc => // t Ht. exact: (Hs t (er, cr) Ht (or_introl erefl)).
    have [||q' [r' [E2 N2 N3 E3 H3]]] := IH _ (sub_mul m c (er - eg) r g') Nq' N1.
    * move=> t Ht. have := H1 _ Ht. have /= := Hn _ (or_introl erefl). clear. lia.
    * move=> t u /List.in_app_iff[Ht|[<-|//]] Hu; have := H1 _ Hu; last by clear; rewrite /=; lia.
      have /= := Hs t (er, cr) Ht (or_introl erefl). clear. lia.
    exists q', r'. split=> //. apply: cgz_trans E3.
    have M : cgz m (cr *: 'X^(Z.to_nat er)) (c *: 'X^(Z.to_nat (er - eg)) * (cl *: 'X^(Z.to_nat eg))).
      rewrite -scalerAl -scalerAr scalerA -exprD. have -> : (Z.to_nat (er - eg) + Z.to_nat eg)%N = Z.to_nat er by rewrite -plusE; clear -Hd Heg; lia.
      apply: cgz_scale. exact: Dc.
    rewrite T_cat mulrDl -addrA. apply: cgz_add; first exact: cgz_refl.
    have -> : T [:: (er - eg, c)%CZ] = c *: 'X^(Z.to_nat (er - eg)) by rewrite T_cons T_nil addr0.
    rewrite [T g]T_cons [T ((er, cr) :: r)]T_cons mulrDr -addrA.
    apply: cgz_add; first exact: M. rewrite -scalerAl.
    apply: (cgz_trans _ (cgz_add (cgz_refl _ _) (cgz_sym E1))). rewrite addrC subrK. exact: cgz_refl.
Qed.
