(** * C53 continued: the recombination does not miss a factor that the lifted factors show. *)
From Coq Require Permutation.
From Verif Require Import Prelude Coef Spec SpecProofs SpecOps SpecOpsProofs GcdDom GcdPoly GcdMath GcdProofs OrderSpec PairVec PairVecProofs MonoStruct MonoStructProofs Heap Poly PolyMulProofs Div PolyDivProofs
  PolyOps PolyOpsProofs ConvertProofs Zp NumSpec ZpProofs DenseSparse GcdHom UGcd UGcdProofs ExtGcd ExtGcdProofs Props_Div FactorZp FzpMath FactorZpBase Hensel HenselMath HenselBase HenselDiv HenselStep HenselTree HenselBuild Props_Hensel Factor Props_Recomb.
From mathcomp Require Import all_ssreflect all_algebra all_field ssrZ.
Import GRing.Theory.
Set Implicit Arguments.
Unset Strict Implicit.
Local Open Scope ring_scope.
Delimit Scope Z_scope with CZ.

(** ** Specification *)
(** S is obtained from T by leaving out elements *)
Inductive sublist_of {A} : list A -> list A -> Prop :=
| sub_nil : sublist_of [::] [::]
| sub_skip x (S T : list A) : sublist_of S T -> sublist_of S (x :: T)
| sub_take x (S T : list A) : sublist_of S T -> sublist_of (x :: S) (x :: T).
Fixpoint degrees (L : list (list (Z * Z))) : Z := match L with [::] => 0%CZ | h :: L => (udeg h + degrees L)%CZ end.

(** ** Proofs *)
Notation upz := (list (Z * Z)).
Notation unz := (normal uok (m_gt uniS) Zc).
Notation TZ := HenselBase.T.
(** increasing positions from b on *)
Fixpoint above (b : nat) (J : list nat) : Prop := match J with [::] => True | y :: J' => (b <= y)%coq_nat /\ above (S y) J' end.
Fixpoint lexle (i J : list nat) : Prop :=
  match i, J with [::], [::] => True | x :: i', y :: J' => (x < y)%coq_nat \/ (x = y /\ lexle i' J') | _, _ => False end.
Lemma above_le J b c : (b <= c)%coq_nat -> above c J -> above b J.
Proof. case: J => [|y J] //= H [H1 H2]. split=> //. move: H H1. clear. lia. Qed.
Lemma above_seq k b : above b (List.seq b k).
Proof. by elim: k b => [|k IH] b //=. Qed.
Lemma seq_lexle J b : above b J -> lexle (List.seq b (length J)) J.
Proof.
elim: J b => [|y J IH] b //= [H1 H2]. case: (Nat.eq_dec b y) => [->|Ne]; last by left; move: H1 Ne; clear; lia. right. split=> //. exact: IH.
Qed.
Lemma next_above n idx : forall b i, above b idx -> next_comb n idx = Some i -> above b i.
Proof.
elim: idx => [|x r IH] b i //= [H1 H2]. case En : (next_comb n r) => [r'|].
- move=> [<-]. split=> //. exact: IH En.
- case: Nat.eqb_spec => // _ [<-]. apply: (@above_le _ _ (S x)); last exact: (above_seq (S (length r))). move: H1. clear. lia.
Qed.
Lemma lexle_refl J : lexle J J. Proof. by elim: J => [|y J IH] //=; right. Qed.
Lemma next_le n : forall idx b (J : list nat), valid n J -> above b J -> length idx = length J -> lexle idx J -> idx <> J ->
  exists i, next_comb n idx = Some i /\ lexle i J.
Proof.
elim=> [|x r IH] b [|y J] //= [V1 V2] [A1 A2] [EL] HL Ne.
case: HL => [Lt|[Exy Le]].
- case En : (next_comb n r) => [r'|]; first by exists (x :: r'); split=> //; left.
  case: Nat.eqb_spec => X; first by exfalso; move: X Lt V1; rewrite EL -?plusE; clear; lia.
  exists (List.seq (S x) (S (length r))). split=> //. change (List.seq (S x) (S (length r))) with (S x :: List.seq (S (S x)) (length r)).
  case: (Nat.eq_dec (S x) y) => [Ey|Ny]; last by left; move: Ny Lt; clear; lia.
  right. split=> //. rewrite EL. apply: seq_lexle. by rewrite Ey.
- subst y. have Ne' : r <> J by move=> X; apply: Ne; rewrite X.
  have [r' [-> Lr]] := IH (S x) J V2 A2 EL Le Ne'.
  exists (x :: r'). split=> //. by right.
Qed.
(** ** Positions of a sublist *)
Lemma pick_cons {A} (a : A) T J sel : Factor.pick T J = Ok sel -> Factor.pick (a :: T) (map S J) = Ok sel.
Proof.
elim: J sel => [|j J IH] sel //=. case: (List.nth_error T j) => [h|] //. case E : (Factor.pick T J) => [l| | |] //= [<-]. by rewrite (IH _ E).
Qed.
Lemma above_S b J : above b J -> above (S b) (map S J).
Proof. elim: J b => [|y J IH] b //= [H1 H2]. split; [move: H1; clear; lia|exact: IH]. Qed.
Lemma above_valid n J b : above b J -> List.Forall (fun j => (j < n)%coq_nat) J -> valid n J.
Proof.
elim: J b => [|y J IH] b //= [H1 H2] F. have F2 := List.Forall_inv_tail F. have F1 := List.Forall_inv F. split; last exact: IH H2 F2.
rewrite -plusE. clear IH H1 F. elim: J y H2 F1 F2 => [|z J IH] y H2 F1 F2 /=; first by move: F1; clear; lia.
move: H2 => [H1 H2]. have := IH z H2 (List.Forall_inv F2) (List.Forall_inv_tail F2). move: H1. clear. lia.
Qed.
Lemma sub_pick (Sb T : list upz) : sublist_of Sb T -> exists J, [/\ Factor.pick T J = Ok Sb, above 0 J, List.Forall (fun j => (j < length T)%coq_nat) J & length J = length Sb].
Proof.
have MF (n : nat) J : List.Forall (fun j => (j < n)%coq_nat) J -> List.Forall (fun j => (j < S n)%coq_nat) (map S J).
  move=> H. apply/List.Forall_map. apply: List.Forall_impl H => j. clear. lia.
have ML J : length (map S J) = length J by elim: J => [|? ? IH] //=; rewrite IH.
elim=> [|x S1 T1 _ [J [E A F L]]|x S1 T1 _ [J [E A F L]]]; first by exists [::].
- exists (map S J). split; [exact: pick_cons|exact: (@above_le _ 0 1 (le_S _ _ (le_n 0)) (above_S A))|exact: MF|by rewrite ML].
- exists (0%N :: map S J). split.
  + by rewrite /= (pick_cons x E).
  + split; [exact: le_n|exact: above_S].
  + constructor; [rewrite /=; clear; lia|exact: MF].
  + by rewrite /= ML L.
Qed.
(** ** Degrees *)
Lemma nth_mid (pre : list upz) a T : List.nth_error (pre ++ a :: T)%list (length pre) = Some a.
Proof. by elim: pre. Qed.
Lemma ar3 (d a D : Z) (t i : nat) : (d + (Z.of_nat t - Z.of_nat i) <= D)%CZ -> (0 < a)%CZ -> (d + (Z.of_nat (S t) - Z.of_nat i) <= a + D)%CZ. Proof. lia. Qed.
Lemma ar4 (d a D : Z) (t i : nat) : (d + (Z.of_nat t - Z.of_nat i) <= D)%CZ -> (a + d + (Z.of_nat (S t) - Z.of_nat (S i)) <= a + D)%CZ. Proof. lia. Qed.
Lemma pick_sum (T : list upz) : List.Forall good T -> forall pre (idx : list nat) sel, Factor.pick (pre ++ T)%list idx = Ok sel -> above (length pre) idx ->
  (degsum sel + (Z.of_nat (length T) - Z.of_nat (length idx)) <= degsum T)%CZ.
Proof.
move=> HT. elim: T HT => [|a T IH] HT pre idx sel.
- rewrite List.app_nil_r. case: idx => [|y idx]; first by move=> /= [<-] _.
  rewrite /=. move=> + [H1 _]. by rewrite (List.nth_error_None pre y).2.
- have [_ _ Da] := List.Forall_inv HT. have {}IH := IH (List.Forall_inv_tail HT) (pre ++ [:: a])%list.
  have EA : ((pre ++ [:: a]) ++ T = pre ++ a :: T)%list by rewrite -List.app_assoc.
  have EL : length (pre ++ [:: a])%list = S (length pre) by rewrite List.app_length /= -?plusE; clear; lia.
  rewrite EA EL in IH. change (degsum (a :: T)) with (udeg a + degsum T)%CZ. change (length (a :: T)) with (S (length T)).
  case: idx => [|y idx] E Ab.
  + exact: (ar3 (IH [::] sel E I) Da).
  + move: Ab => [H1 H2]. case: (Nat.eq_dec (length pre) y) => [Ey|Ne].
    * subst y. move: E. rewrite /= nth_mid. case E : (Factor.pick _ idx) => [l| | |] //= [<-].
      exact: (@ar4 _ (udeg a) _ _ _ (IH idx l E H2)).
    * have A' : above (S (length pre)) (y :: idx) by split=> //; move: H1 Ne; clear; lia.
      exact: (ar3 (IH (y :: idx) sel E A') Da).
Qed.
(** ** The congruence and the trial division *)
Lemma symm_eq m a b : (1 < m)%CZ -> (m | a - b)%CZ -> (2 * Z.abs a < m)%CZ -> symm_mod m b = a.
Proof.
move=> m1 [k Ek] H. have -> : b = (a + (- k) * m)%CZ by move: Ek; clear; lia.
rewrite /symm_mod Z.mod_add; last by move: m1; clear; lia.
have D := Z.div_mod m 2. have B := Z.mod_pos_bound m 2. move: D B. move: (m / 2)%CZ (m mod 2)%CZ => q r D B.
case: (Z.lt_ge_cases a 0) => Ha.
- have -> : (a mod m = a + m)%CZ by symmetry; apply: (Z.mod_unique_pos _ _ (- 1)); move: H m1 Ha; clear; lia.
  rewrite Z.gtb_ltb. case: Z.ltb_spec => L; first by clear; lia. exfalso. move: L H m1 Ha D B. clear. lia.
- rewrite Z.mod_small; last by move: H Ha; clear; lia.
  rewrite Z.gtb_ltb. case: Z.ltb_spec => L //. exfalso. move: L H m1 Ha D B. clear. lia.
Qed.
Lemma symm_0 m : (1 < m)%CZ -> symm_mod m 0 = 0%CZ.
Proof. move=> m1. apply: symm_eq => //; [by exists 0%CZ|by move: m1; clear; lia]. Qed.
Lemma usub_T m (sel : list upz) : (1 < m)%CZ -> List.Forall unz sel -> forall prod G, unz prod -> usubset m prod sel = Ok G ->
  exists R, [/\ unz R, cgz m (TZ R) (TZ prod * prodT sel) & G = usymm_mod m R].
Proof.
move=> m1. elim: sel => [|h sel IH] HS prod G Np.
- move=> [<-]. exists prod. split=> //. rewrite /= mulr1. exact: cgz_refl.
- have [r [E1 Nr Tr]] := hmul_ok Np (List.Forall_inv HS). change (hmul prod h) with (umul prod h) in E1.
  rewrite [usubset _ _ _]/= E1 [Prelude.obind (Ok _) _]/=. have [NM CM _] := HenselBase.mod_ok m1 Nr.
  move=> E. have [R [NR CR EG]] := IH (List.Forall_inv_tail HS) (mod_coeff m r) G NM E. exists R. split=> //.
  apply: cgz_trans CR _. change (prodT (h :: sel)) with (TZ h * prodT sel). rewrite mulrA -Tr. apply: cgz_mul => //. exact: cgz_refl.
Qed.
Lemma symm_coef m R i : (1 < m)%CZ -> unz R -> (TZ (usymm_mod m R))`_i = symm_mod m (TZ R)`_i.
Proof. move=> m1 N. apply: (@HenselBase.fmap_coef (symm_mod m)) => //. exact: symm_0. Qed.
Lemma last_app (u : Z * Z) (l : upz) : l <> [::] ->
  match (l ++ [:: u])%list with [::] => 0%CZ | t :: _ => if (fst t =? 0)%CZ then snd t else 0%CZ end =
  match l with [::] => 0%CZ | t :: _ => if (fst t =? 0)%CZ then snd t else 0%CZ end.
Proof. by case: l. Qed.
Lemma const_T (f : upz) : unz f -> uconst_term f = (TZ f)`_0.
Proof.
rewrite /uconst_term. elim: f => [|[e c] f IH] N; first by rewrite HenselBase.T_nil coef0.
have [/= He _] := HenselBase.n_in N (or_introl erefl).
case: f IH N => [|[e' c'] f] IH N.
- rewrite HenselBase.T_cons HenselBase.T_nil addr0 coefZ coefXn. change ((if (e =? 0)%CZ then c else 0%CZ) = c * (0%N == Z.to_nat e)%:R). case: Z.eqb_spec => [->|Ne]; first by rewrite mulr1.
  have -> : (0%N == Z.to_nat e) = false by apply/eqP; move: Ne He; clear; lia. by rewrite mulr0.
- rewrite HenselBase.T_cons coefD coefZ coefXn. have Hi : List.In (e', c') ((e', c') :: f) by left. have /= He' := HenselBase.n_head N Hi.
  have -> : (0%N == Z.to_nat e) = false by apply/eqP; move: He' He; clear; lia. rewrite mulr0 add0r -(IH (HenselBase.n_tl N)).
  have Hne : List.rev ((e', c') :: f) <> [::] by move=> X; have := List.rev_length ((e', c') :: f); rewrite X.
  exact: (last_app (e, c) Hne).
Qed.
Lemma coef0_M (P Q : {poly Z}) : (P * Q)`_0 = P`_0 * Q`_0. Proof. by rewrite -!horner_coef0 hornerM. Qed.
Lemma consts_T (sel : list upz) c : List.Forall unz sel -> fold_left (fun c h => c * uconst_term h)%CZ sel c = (c * (prodT sel)`_0)%CZ.
Proof.
elim: sel c => [|h sel IH] c H; first by rewrite /= coef1 /= Z.mul_1_r.
rewrite [fold_left _ _ _]/= IH; last exact: List.Forall_inv_tail H. rewrite (const_T (List.Forall_inv H)).
change (prodT (h :: sel)) with (TZ h * prodT sel). rewrite coef0_M. by rewrite -Z.mul_assoc.
Qed.
Section Hit.
Variables (m : Z) (f g h : upz) (sel : list upz).
Hypotheses (m1 : (1 < m)%CZ) (Pf : pos f) (Pg : pos g) (Ph : pos h) (L2 : (2 * lead f <= m)%CZ) (Hsel : List.Forall good sel).
Hypothesis Efgh : TZ f = TZ g * TZ h.
Hypothesis Hc : forall i, (m | lead h * (TZ g)`_i - lead f * (prodT sel)`_i)%CZ.
Hypothesis Hb : forall i, (2 * Z.abs (lead h * (TZ g)`_i) < m)%CZ.
Lemma Nsel : List.Forall unz sel. Proof. by apply: List.Forall_impl Hsel => x []. Qed.
Lemma lead_f : lead f = (lead g * lead h)%CZ.
Proof. have [Nf _] := Pf. have [Ng _] := Pg. have [Nh _] := Ph. by rewrite -!lead_T // Efgh lead_coefM. Qed.
Lemma hit_prune : prune m f sel = Ok false.
Proof.
have [Nf Lf] := Pf. have El : ulc f = Ok (lead f) by case: (f) Lf.
rewrite /prune El [Prelude.obind (Ok _) _]/=.
have -> : prod_lc (lead f) sel = Ok (lead f).
  elim: sel Hsel => [|x l IH] H //. have [_ M _] := List.Forall_inv H. rewrite [prod_lc _ _]/=.
  case: x M H => [|[e c] x] // M H. change (c = 1%CZ) in M. subst c. rewrite [ulc _]/= [Prelude.obind (Ok _) _]/= Z.mul_1_r. exact: IH (List.Forall_inv_tail H).
rewrite [Prelude.obind (Ok _) _]/= symm_mod_small // Z.mod_mul; last by move: Lf; clear; lia.
rewrite andbF consts_T; last exact: Nsel. rewrite (symm_eq m1 (Hc 0) (Hb 0)).
rewrite (const_T Nf) Efgh coef0_M lead_f.
case: Z.eqb_spec => Hz //. 
have -> : ((lead g * lead h) * ((TZ g)`_0 * (TZ h)`_0)%R = (lead g * (TZ h)`_0) * (lead h * (TZ g)`_0))%CZ.
  change ((lead g * lead h) * ((TZ g)`_0 * (TZ h)`_0) = (lead g * (TZ h)`_0) * (lead h * (TZ g)`_0))%CZ. by ring.
by rewrite Z.mod_mul.
Qed.
Lemma hit_sub G : usubset m [:: (0%CZ, lead f)] sel = Ok G -> unz G /\ TZ G = (lead h) *: TZ g.
Proof.
move=> E. have [Nf Lf] := Pf. have lc0 : lead f <> 0%CZ by move: Lf; clear; lia.
have N0 : unz [:: (0, lead f)%CZ] by apply: HenselBase.n_cons => //; exact: HenselBase.n_nil.
have [R [NR CR ->]] := usub_T m1 Nsel N0 E. split; first exact: (@HenselBase.fmap_norm (symm_mod m)).
apply/polyP => i. rewrite symm_coef // coefZ. refine (symm_eq m1 _ (Hb i)).
have := cgz_coef i CR. rewrite HenselBase.T_cons HenselBase.T_nil addr0 expr0 alg_polyC coefCM => D.
have -> : (lead h * (TZ g)`_i - (TZ R)`_i = (lead h * (TZ g)`_i - lead f * (prodT sel)`_i) - ((TZ R)`_i - lead f * (prodT sel)`_i))%CZ by clear; lia.
apply: Z.divide_sub_r; [exact: Hc|exact: D].
Qed.
Lemma hit_trial fuel G : usubset m [:: (0%CZ, lead f)] sel = Ok G -> utrial fuel f G <> Ok None.
Proof.
move=> E. have [NG TG] := hit_sub E. have [Nf Lf] := Pf. have [Ng Lg] := Pg. have [Nh Lh] := Ph.
have PG : pos G.
  apply: pos_T => //. rewrite TG lead_coefZ (lead_T Ng). exact: Z.mul_pos_pos.
have [k [k0 Ppp Tk _ Dk]] := prim_ok PG. rewrite /utrial. move: (snd (uprim G)) Ppp Tk => p0 [Np Lp] Tk.
have [k' Ek] : (lead h | k)%CZ.
  apply: Dk => -[e c] Ht. rewrite /= -(HenselBase.T_in NG Ht) TG coefZ. exists ((TZ g)`_(Z.to_nat e)). exact: mulrC.
have k'0 : k' <> 0%CZ by move=> X; move: k0; rewrite Ek X; clear; lia.
have Tg : TZ g = k' *: TZ p0.
  apply/polyP => i. have := congr1 (fun P : {poly Z} => P`_i) Tk. rewrite /= TG !coefZ Ek => X.
  apply: (Z.mul_reg_l _ _ (lead h)); first by move: Lh; clear; lia. 
  have X' : (lead h * (TZ g)`_i = k' * lead h * (TZ p0)`_i)%CZ := X. rewrite X' ?coefZ. change (k' * lead h * (TZ p0)`_i = lead h * (k' * (TZ p0)`_i))%CZ. by ring.
have p0n : p0 <> [::] by move=> X; move: Lp; rewrite X.
have [q [r [[_ D2] [N HN]]]] := p_div_test uniS uok usm Zc uniS_ok HKz Zc_domain Zc_quorem nohook2 f p0 I Nf Np p0n.
have [NH TH] := mul_coeff_ok' k'0 Nh.
have [R [ER [NR RR]]] := p_mul_ok uniS uok usm Zc uniS_ok HKz Zc_domain no_compress (mul_coeff k' h) p0 (conj I I) NH Np.
have [R' [ER' _ TR]] := hmul_ok NH Np. have EE : R' = R by move: ER'; rewrite /hmul ER => -[]. subst R'.
have ERf : f = R.
  apply: T_inj => //. by rewrite Efgh TR TH Tg mul_polyC -scalerAl -scalerAl mulrC.
have [_ r0] := D2 _ NH (eq_ind_r (fun z => req Zc (graw usm z) _) RR ERf).
case Ed : (udivrem fuel f p0) => [[a b]| | |] //. rewrite [Prelude.obind (Ok _) _]/=.
have [_ ->] : (a, b) = (q, r).
  apply: (fuel_agree (fun fuel => udivrem fuel f p0) fuel) => //; first exact: pair_vec_div_rem_mono. by exists N.
by rewrite r0.
Qed.
End Hit.
(** ** The search *)
Section Scan.
Variables (m : Z) (f : upz) (T0 : list upz).
Hypotheses (m1 : (1 < m)%CZ) (Pf : pos f) (L2 : (2 * lead f <= m)%CZ) (HT : List.Forall good T0).
(** a polynomial found has the degree of its subset *)
Lemma scan_found fuel : forall idx pp q i, above 0 idx -> valid (length T0) idx -> idx <> [::] -> zass_scan fuel m f T0 idx = Ok (Some (pp, q, i)) ->
  exists sel, [/\ Factor.pick T0 i = Ok sel, above 0 i, length i = length idx & udeg pp = degsum sel].
Proof.
elim: fuel => [|fuel IH] idx pp q i A V Hn //.
have [sel [Es Fs Sn]] := pick_total V HT. have [b Eb] := prune_total m Pf Fs.
have [Nf Lf] := Pf. have El : ulc f = Ok (lead f) by case: (f) Lf.
rewrite [zass_scan _ _ _ _ _]/= Es [Prelude.obind (Ok _) _]/= Eb [Prelude.obind (Ok b) _]/=.
have NX : match next_comb (length T0) idx with Some idx' => zass_scan fuel m f T0 idx' | None => Ok None end = Ok (Some (pp, q, i)) ->
  exists sel, [/\ Factor.pick T0 i = Ok sel, above 0 i, length i = length idx & udeg pp = degsum sel].
  have := next_ok V. case En : (next_comb (length T0) idx) => [j|] // [Vj Lj _] E.
  have Hj : j <> [::] by move=> X; apply: Hn; apply/List.length_zero_iff_nil; rewrite -Lj X.
  have [s2 [H1 H2 H3 H4]] := IH j pp q i (next_above A En) Vj Hj E. exists s2. split=> //. by rewrite H3.
case: b {Eb} => /=; first exact: NX.
rewrite El [Prelude.obind (Ok _) _]/=. have lc0 : lead f <> 0%CZ by move: Lf; clear; lia.
have N0 : unz [:: (0, lead f)%CZ] by apply: HenselBase.n_cons => //; exact: HenselBase.n_nil.
have [g [Eg [Pg Dg]]] := sub_total m1 Lf L2 Fs N0 erefl. rewrite Eg [Prelude.obind (Ok g) _]/=.
have [kg [kg0 Ppp _ Dpp _]] := prim_ok Pg.
rewrite /utrial. case: (udivrem fuel f (snd (uprim g))) => [[a r]| | |] //. rewrite [Prelude.obind (Ok _) _]/=.
case: r => [|? ?]; rewrite [Prelude.obind (Ok _) _]/=; last exact: NX.
move=> [<- _ <-]. exists sel. split=> //. rewrite Dpp Dg. by [].
Qed.
(** a subset that succeeds is not passed over *)
Lemma scan_hits J sel : Factor.pick T0 J = Ok sel -> above 0 J -> valid (length T0) J -> J <> [::] -> prune m f sel = Ok false ->
  (forall fuel G, usubset m [:: (0%CZ, lead f)] sel = Ok G -> utrial fuel f G <> Ok None) ->
  forall fuel idx, valid (length T0) idx -> length idx = length J -> lexle idx J -> zass_scan fuel m f T0 idx <> Ok None.
Proof.
move=> EJ AJ VJ JN PJ UJ. have [Nf Lf] := Pf. have El : ulc f = Ok (lead f) by case: (f) Lf.
elim=> [|fuel IH] idx V L Le //. rewrite [zass_scan _ _ _ _ _]/=.
case: (List.list_eq_dec Nat.eq_dec idx J) => [->|Ne].
- rewrite EJ [Prelude.obind (Ok _) _]/= PJ [Prelude.obind (Ok _) _]/= El [Prelude.obind (Ok _) _]/=.
  case EG : (usubset m [:: (0%CZ, lead f)] sel) => [G| | |] //. rewrite [Prelude.obind (Ok _) _]/=.
  case EU : (utrial fuel f G) => [[[pp q]|]| | |] //. by case: (UJ _ _ EG EU).
- have [j [En Lj]] := next_le VJ AJ L Le Ne. have [Vj Llj _] : [/\ valid (length T0) j, length j = length idx & (enc (length T0) idx < enc (length T0) j)%coq_nat] by have := next_ok V; rewrite En.
  have NX := IH j Vj (etrans Llj L) Lj. rewrite En.
  case: (Factor.pick T0 idx) => [s2| | |] //. rewrite [Prelude.obind (Ok _) _]/=.
  case: (prune m f s2) => [b| | |] //. rewrite [Prelude.obind (Ok b) _]/=.
  case: (if b then _ else _) => [[[pp q]|]| | |] //.
Qed.
Variable usort : list upz -> list upz.
Hypothesis Hsort : forall l, Permutation.Permutation (usort l) l.
Lemma loop_keeps x : forall fuel s T f1 res L, List.In x res -> zass_loop usort fuel m s T f1 res = Ok L -> List.In x L.
Proof.
elim=> [|fuel IH] s T f1 res L Hx //. rewrite [zass_loop _ _ _ _ _ _ _]/=. case: (Nat.leb _ _).
- case: (zass_scan fuel m f1 T (List.seq 0 s)) => [[[[pp q] i]|]| | |] //; rewrite [Prelude.obind (Ok _) _]/=; apply: IH => //.
  apply/List.in_app_iff. by left.
- move=> [<-]. apply: (Permutation.Permutation_in _ (Permutation.Permutation_sym (Hsort _))). case: (_ && _) => //. apply/List.in_app_iff. by left.
Qed.
Lemma loop_hits J sel : Factor.pick T0 J = Ok sel -> above 0 J -> valid (length T0) J -> J <> [::] -> (2 * length J <= length T0)%coq_nat ->
  prune m f sel = Ok false -> (forall fuel G, usubset m [:: (0%CZ, lead f)] sel = Ok G -> utrial fuel f G <> Ok None) ->
  forall fuel s L, (1 <= s)%coq_nat -> (s <= length J)%coq_nat -> zass_loop usort fuel m s T0 f [::] = Ok L ->
  exists x, List.In x L /\ (udeg x < degsum T0)%CZ.
Proof.
move=> EJ AJ VJ JN J2 PJ UJ. elim=> [|fuel IH] s L S1 S2 //. rewrite [zass_loop _ _ _ _ _ _ _]/=.
have Hs : (s + (s + 0) <= length T0)%coq_nat by move: S2 J2; clear; lia.
rewrite (Nat.leb_le _ _).2 //.
have Vs : valid (length T0) (List.seq 0 s) by apply: valid_seq; move: Hs; rewrite -?plusE; clear; lia.
have Sn : List.seq 0 s <> [::] by move: S1; case: (s) => //; clear; lia.
case Es : (zass_scan fuel m f T0 (List.seq 0 s)) => [[[[pp q] i]|]| | |] //; rewrite [Prelude.obind (Ok _) _]/=.
- move=> E. have [s2 [P2 A2 L2' D2]] := scan_found (above_seq s 0) Vs Sn Es.
  exists pp. split; first by apply: loop_keeps E; left.
  have := @pick_sum T0 HT [::] i s2 P2 A2. rewrite L2' seqlen D2. move: S1 Hs. clear. lia.
- case: (Nat.eq_dec s (length J)) => [EsJ|NsJ].
  + move=> _. exfalso. apply: (scan_hits EJ AJ VJ JN PJ UJ) Vs _ _ Es; first by rewrite seqlen.
    rewrite EsJ. exact: seq_lexle.
  + apply: IH; move: S1 S2 NsJ; clear; lia.
Qed.
End Scan.

Lemma ar5 (n j : nat) : (n <= 1)%coq_nat -> (1 <= j)%coq_nat -> (2 * j <= n)%coq_nat -> False. Proof. lia. Qed.
(** ** The theorem.  f = g h over Z; the part lead(h) g is congruent modulo m to lead(f) times the product of a non-empty sublist
    of at most half of the lifted factors, and its coefficients are below m/2 in absolute value.  Then the result has at
    least two factors: a result with one element shows that no such factorization exists. *)
Theorem C53_factor_not_missed : forall rsort f lifted m g h Sb L, degree_sort rsort ->
  znormal f -> (0 < lead f)%CZ -> primitive_poly f ->
  List.Forall (fun h => [/\ znormal h, monic_poly h & (0 < udeg h)%CZ]) lifted -> (1 < m)%CZ -> (2 * lead f <= m)%CZ ->
  udeg f = degrees lifted ->
  znormal g -> znormal h -> (0 < lead g)%CZ -> (0 < lead h)%CZ -> req Zc (graw usm f) (rmul Zc (graw usm g) (graw usm h)) ->
  sublist_of Sb lifted -> Sb <> [::] -> (2 * length Sb <= length lifted)%coq_nat ->
  (forall n, (0 <= n)%CZ -> (m | lead h * xcoef (graw usm g) n - lead f * xcoef (zproduct Sb) n)%CZ) ->
  (forall n, (0 <= n)%CZ -> (2 * Z.abs (lead h * xcoef (graw usm g) n) < m)%CZ) ->
  terminates_with (fun fuel => zassenhaus rsort fuel f lifted m) L -> (2 <= length L)%coq_nat.
Proof.
move=> rsort f lifted m g h Sb L HR Nf Lf Pf HT m1 m2 HD Ng Nh Lg Lh Rf HS Sn S2 Hc Hb TL.
have [L' [TL' [RL [FL _]]]] := C53_recombination HR Nf Lf Pf HT m1 m2.
have HSb : List.Forall good Sb.
  apply/List.Forall_forall => x Hx. apply: ((List.Forall_forall _ _).1 HT).
  elim: HS Hx {Sn S2 Hc} => [|y S1 T1 _ IH|y S1 T1 _ IH] //=; first by move=> /IH; right. by move=> [->|/IH]; [left|right].
have NSb : List.Forall unz Sb by apply: List.Forall_impl HSb => x [].
have [r [Nr Tr Rr]] := zprod_norm NSb.
have C i : xcoef (zproduct Sb) (Z.of_nat i) = (prodT Sb)`_i by rewrite -Tr TZ_xcoef // /xcoef Rr.
have Hc' i : (m | lead h * (TZ g)`_i - lead f * (prodT Sb)`_i)%CZ by rewrite -C TZ_xcoef //; apply: Hc; exact: Nat2Z.is_nonneg.
have Hb' i : (2 * Z.abs (lead h * (TZ g)`_i) < m)%CZ by rewrite TZ_xcoef //; apply: Hb; exact: Nat2Z.is_nonneg.
have Efgh : TZ f = TZ g * TZ h by rewrite /HenselBase.T (toP_req Rf) toP_mul.
have Pf' : pos f by []. have Pg : pos g by []. have Ph : pos h by [].
have [J [EJ AJ FJ LJ]] := sub_pick HS. have VJ := above_valid AJ FJ.
have JN : J <> [::] by move=> X; apply: Sn; apply/List.length_zero_iff_nil; rewrite -LJ X.
have J2 : (2 * length J <= length lifted)%coq_nat by rewrite LJ.
have J1 : (1 <= length J)%coq_nat by case: (J) JN => // ? ? _; rewrite /=; clear; lia.
have PJ := hit_prune m1 Pf' Pg Ph m2 HSb Efgh Hc' Hb'.
have UJ : forall fuel G, usubset m [:: (0%CZ, lead f)] Sb = Ok G -> utrial fuel f G <> Ok None.
  by move=> fuel G; exact: (hit_trial m1 Pf' Pg Ph HSb Efgh Hc' Hb').
move: TL => [N1 E1]. move: TL' => [N2 E2].
have EL : L' = L.
  have X1 := E1 (Nat.max N1 N2) (Nat.le_max_l _ _). have X2 := E2 (Nat.max N1 N2) (Nat.le_max_r _ _). by rewrite X1 in X2; case: X2.
subst L'. have := E1 N1 (le_n _). rewrite /zassenhaus. case: Nat.leb_spec => Len; first by case: (ar5 Len J1 J2).
move=> E. have [x [Hx Dx]] := loop_hits m1 Pf' m2 HT (fun l => (HR l).1) EJ AJ VJ JN J2 PJ UJ (le_n 1) J1 E.
have HD' : udeg f = degsum lifted by rewrite HD; elim: (lifted) => [|? ? IH] //=; rewrite IH.
case: L Hx E1 FL RL E2 E => [|y [|z L]] // Hx E1 FL RL E2 E; last by rewrite /=; clear; lia.
exfalso. case: Hx => // Ey. subst y. have Nx : unz x by have [] := List.Forall_inv FL.
have NL : List.Forall unz [:: x] by constructor.
have [w [Nw Tw Rw]] := zprod_norm NL.
have Tf : TZ f = TZ x.
  have -> : TZ f = TZ w by rewrite /HenselBase.T (toP_req RL) -(toP_req Rw). by rewrite Tw /= mulr1.
have Dfx : udeg f = udeg x by rewrite !HenselBase.T_deg // Tf. move: Dx. rewrite -HD' Dfx. clear. lia.
Qed.
Print Assumptions C53_factor_not_missed.
(** ** Example: (x^2 - 2) (x^2 - 11) and its four lifted factors modulo 7^4; the sublist of the two roots of x^2 - 2 *)
Definition ex_q : list (Z * Z) := [:: (4, 1); (2, -13); (0, 22)]%CZ.
Definition ex_q1 : list (Z * Z) := [:: (2, 1); (0, -2)]%CZ.
Definition ex_q2 : list (Z * Z) := [:: (2, 1); (0, -11)]%CZ.
Definition ex_l (a : Z) : list (Z * Z) := [:: (1, 1); (0, a)]%CZ.
Definition ex_q_lifted := [:: ex_l 235; ex_l 817; ex_l 1584; ex_l 2166]%CZ.
Definition ex_q_sub := [:: ex_l 235; ex_l 2166]%CZ.
Theorem C53_missed_example_hypotheses : degree_sort isort /\ znormal ex_q /\ (0 < lead ex_q)%CZ /\ primitive_poly ex_q /\
  List.Forall (fun h => [/\ znormal h, monic_poly h & (0 < udeg h)%CZ]) ex_q_lifted /\ (2 * lead ex_q <= 2401)%CZ /\
  udeg ex_q = degrees ex_q_lifted /\ znormal ex_q1 /\ znormal ex_q2 /\ (0 < lead ex_q1)%CZ /\ (0 < lead ex_q2)%CZ /\
  req Zc (graw usm ex_q) (rmul Zc (graw usm ex_q1) (graw usm ex_q2)) /\
  sublist_of ex_q_sub ex_q_lifted /\ (2 * length ex_q_sub <= length ex_q_lifted)%coq_nat /\
  (forall n, (0 <= n)%CZ -> (2401 | lead ex_q2 * xcoef (graw usm ex_q1) n - lead ex_q * xcoef (zproduct ex_q_sub) n)%CZ) /\
  (forall n, (0 <= n)%CZ -> (2 * Z.abs (lead ex_q2 * xcoef (graw usm ex_q1) n) < 2401)%CZ).
Proof.
have Nq : unz ex_q by nrm. have N1 : unz ex_q1 by nrm. have N2 : unz ex_q2 by nrm.
have NL a : (0 < a)%CZ -> unz (ex_l a).
  move=> Ha. apply: HenselBase.n_cons => //; first by move=> t [<-|//]. apply: HenselBase.n_cons => //; [by move: Ha; clear; lia|exact: HenselBase.n_nil].
split; [exact: isort_ok|]. split=> //. split=> //. split.
  move=> d H. have := H (4, 1)%CZ (or_introl erefl). by [].
split; first by repeat (constructor; first by split; [exact: NL|done|done]).
split=> //. split=> //. split=> //. split=> //. split=> //. split=> //. split.
  have [r [E [N R]]] := p_mul_ok uniS uok usm Zc uniS_ok HKz Zc_domain no_compress ex_q1 ex_q2 (conj I I) N1 N2.
  have Er : r = ex_q by move: E; vm_compute => -[].
  by rewrite -Er.
split; first by apply: sub_take; apply: sub_skip; apply: sub_skip; apply: sub_take; exact: sub_nil.
split; first exact: le_n.
split.
- have [r1 [E1 Nr1 T1]] := hmul_ok (NL 235%CZ (erefl _)) (NL 2166%CZ (erefl _)).
  have PT : prodT ex_q_sub = TZ r1 by change (prodT ex_q_sub) with (TZ (ex_l 235) * (TZ (ex_l 2166) * 1)); rewrite mulr1 T1.
  have Er1 : r1 = [:: (2, 1); (1, 2401); (0, 509010)]%CZ by move: E1; vm_compute => -[].
  have FM : factors_mod 2401 ex_q1 1 ex_q_sub.
    apply/factors_cgz => //; first by repeat (constructor; first exact: NL). rewrite scale1r PT.
    have [N4 T4] := hsub_ok N1 Nr1. have Ne : unz [:: (1, -1); (0, -212)]%CZ by nrm.
    have t2 : (2401 <> 0)%CZ by []. have [N5 T5] := mul_coeff_ok' t2 Ne.
    have EQ : hsub ex_q1 r1 = mul_coeff 2401 [:: (1, -1); (0, -212)]%CZ by rewrite Er1; vm_compute.
    rewrite EQ T5 in T4. exists (TZ [:: (1, -1); (0, -212)]%CZ). by rewrite /Padd /Pmul T4 addrC subrK.
  move=> n Hn. have := FM n Hn. change (lead ex_q2) with 1%CZ. change (lead ex_q) with 1%CZ. by rewrite !Z.mul_1_l.
- move=> n Hn. change (lead ex_q2) with 1%CZ. rewrite Z.mul_1_l -(Z2Nat.id n Hn) -TZ_xcoef // /ex_q1 !HenselBase.T_cons HenselBase.T_nil addr0 coefD !coefZ !coefXn.
  case: (_ == _); case: (_ == _); by [].
Qed.
