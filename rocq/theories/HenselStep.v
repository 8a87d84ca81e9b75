(** * One Hensel step, the recursion over the tree, the lifting loop. *)
From Verif Require Import Prelude Coef Spec SpecProofs SpecOps SpecOpsProofs GcdDom GcdPoly GcdMath GcdProofs OrderSpec PairVec PairVecProofs MonoStruct MonoStructProofs Heap Poly PolyMulProofs Div PolyDivProofs
  PolyOps PolyOpsProofs ConvertProofs Zp NumSpec ZpProofs DenseSparse UGcd ExtGcd FactorZp Hensel HenselMath HenselBase HenselDiv.
From mathcomp Require Import all_ssreflect all_algebra all_field ssrZ.
Import GRing.Theory.
Set Implicit Arguments.
Unset Strict Implicit.
Local Open Scope ring_scope.
Delimit Scope Z_scope with CZ.
Notation PZ := {poly Z}.
Notation unz := (normal uok (m_gt uniS) Zc).
(** the documentation of mpz_invert *)
Definition inv_doc (invert : Z -> Z -> option Z) : Prop :=
  forall a m, (1 < m)%CZ -> Z.gcd a m = 1%CZ -> exists r, invert a m = Some r /\ (0 <= r < m)%CZ /\ ((a * r) mod m = 1)%CZ.
Definition monicz (h : upz) : Prop := exists e l, h = (e, 1%CZ) :: l.
(** coefficients in [0, m) *)
Definition reduced (m : Z) (l : upz) : Prop := forall i, (0 <= (T l)`_i < m)%CZ.
Section Inv.
Variable invert : Z -> Z -> option Z.
Hypothesis Hinv : inv_doc invert.
Lemma gcd1 m : Z.gcd 1 m = 1%CZ. Proof. by rewrite Z.gcd_1_l. Qed.
Lemma divmod_ok m eh (l f : upz) : (1 < m)%CZ -> unz f -> unz ((eh, 1%CZ) :: l) ->
  exists q r, [/\ divmod invert f ((eh, 1%CZ) :: l) m = Ok (q, r), unz q, unz r, cgz m (T f) (T q * T ((eh, 1%CZ) :: l) + T r) & forall t, List.In t r -> (fst t < eh)%CZ].
Proof.
move=> m1 Nf Nh. have [inv [E [_ Ei]]] := Hinv m1 (gcd1 m). rewrite /divmod /= E.
have [N1 C1 _] := mod_ok m1 Nf. have D : (m | 1 * inv - 1)%CZ.
  exists ((1 * inv) / m)%CZ. have := Z.div_mod (1 * inv) m. rewrite Ei. move: m1. clear. lia.
have H : forall t, List.In t (mod_coeff m f) -> (fst t < Z.of_nat (S (Z.to_nat (udeg (mod_coeff m f)))))%CZ.
  move=> t. case: (mod_coeff m f) N1 => [|[e c] r] N1 //= [<-|Ht] /=; have [/= He _] := n_in N1 (or_introl erefl); first by move: He; clear; lia.
  have := n_head N1 Ht. clear. lia.
have [q [r [E1 N2 N3 E2 H2]]] := @divmod_loop_ok m inv eh 1%CZ l m1 Nh D _ [::] (mod_coeff m f) n_nil N1 H (fun _ _ F => match F with end).
exists q, r. split=> //. apply: cgz_trans E2. rewrite T_nil mul0r add0r. exact: cgz_sym.
Qed.
Lemma cg_sq m a b : cg PZ Padd Pmul (Pmul m%:P m%:P) a b -> cgz (m * m)%CZ a b.
Proof. by rewrite /cgz /Pmul -polyCM. Qed.
Lemma cgz_sq m a b : cgz (m * m)%CZ a b -> exists x, a = Padd b (Pmul (Pmul m%:P m%:P) x).
Proof. by rewrite /cgz /cg /Pmul -polyCM. Qed.
Lemma unz1 : unz [:: (0, 1)%CZ].
Proof. by apply: n_cons => //; exact: n_nil. Qed.
Lemma T1 : T [:: (0, 1)%CZ] = 1.
Proof. by rewrite T_cons T_nil addr0 /= expr0 scale1r. Qed.
Lemma small_eq (M a b : Z) : (M | a - b)%CZ -> (0 <= a < M)%CZ -> (0 <= b < M)%CZ -> a = b.
Proof.
move=> [k E] Ha Hb. have : (k = 0)%CZ; last by move=> k0; move: E; rewrite k0; clear; lia.
move: E Ha Hb. clear. nia.
Qed.
Lemma monic_of eh (h r : upz) M : (1 < M)%CZ -> (0 <= eh)%CZ -> unz h -> cgz M (T h) ('X^(Z.to_nat eh) + T r) -> reduced M h -> (forall t, List.In t r -> (fst t < eh)%CZ) -> unz r ->
  exists l, h = (eh, 1%CZ) :: l.
Proof.
move=> M1 He Nh C R Hr Nr.
have V i : (Z.to_nat eh <= i)%N -> (T h)`_i = (if i == Z.to_nat eh then 1%CZ else 0%CZ).
  move=> L. have := cgz_coef i C. rewrite coefD coefXn (T_high Nr); last first.
    move=> t Ht. have := Hr _ Ht. move/leP: L. clear -He. lia.
  rewrite addr0. have X := R i. case: eqP => _ D; [apply: (@small_eq M _ 1%CZ D X)|apply: (@small_eq M _ 0%CZ D X)]; move: M1; clear; lia.
case: h Nh C R V => [|[e c] l] Nh C R V; first by have := V _ (leqnn _); rewrite eqxx T_nil coef0.
have E1 := T_top Nh. have [/= He' Hc] := n_in Nh (or_introl erefl).
have L : (Z.to_nat eh <= Z.to_nat e)%N.
  rewrite leqNgt. apply/negP => L. have := V _ (leqnn _). rewrite eqxx T_high // => t [<-|Ht] /=; move/ltP: L; first by clear -He He'; lia. have := n_head Nh Ht. clear -He He'. lia.
have := V _ L. rewrite E1. case: eqP => // E2 E3. exists l. rewrite E3. congr ((_, _) :: _). move: E2 He He'. clear. lia.
Qed.
Local Opaque hadd hsub hmul divmod mod_coeff mul_coeff div_coeff.
Lemma step_ok m (g h s t f : upz) : (1 < m)%CZ -> unz g -> unz h -> unz s -> unz t -> unz f -> monicz h ->
  cgz m (T f) (T g * T h) -> cgz m (T s * T g + T t * T h) 1 ->
  exists g' h' s' t', [/\ hensel_step invert g h s t f m = Ok (g', h', s', t'),
    [/\ unz g', unz h', unz s', unz t' & monicz h'],
    [/\ reduced (m * m) g', reduced (m * m) h', cgz m (T g') (T g) & cgz m (T h') (T h)],
    cgz (m * m) (T f) (T g' * T h') & cgz (m * m) (T s' * T g' + T t' * T h') 1].
Proof.
move=> m1 Ng Nh Ns Nt Nf Mh [e0 Ef] [b Eb]. have M1 : (1 < m * m)%CZ by move: m1; clear; nia.
move: Mh Nh Ef Eb => [eh [lh ->]]. set h0 := (eh, 1%CZ) :: lh => Nh Ef Eb.
have [/= Heh _] := n_in Nh (or_introl erefl).
have [gh [E1 N1 R1]] := hmul_ok Ng Nh. rewrite /hensel_step -/h0 E1 /=.
have [N2 R2] := hsub_ok Nf N1. have [|N3 [x1 C3]] := @div_ok m _ e0 m1 N2.
  rewrite R2 R1 Ef /Padd /Pmul addrC addKr //.
have [se [E4 N4 R4]] := hmul_ok Ns N3. rewrite E4 /=.
have [q [r [E5 N5 N5' [x2 C5] H5]]] := divmod_ok m1 N4 Nh. rewrite -/h0 in E5 C5. rewrite E5 /=.
have [te [E6 N6 R6]] := hmul_ok Nt N3. rewrite E6 /=. have [qg [E7 N7 R7]] := hmul_ok N5 Ng. rewrite E7 /=.
have [N8 R8] := hadd_ok N6 N7. have [N9 [x3 C9] _] := mod_ok m1 N8. set tau := mod_coeff m (hadd te qg) in N9 C9 *.
have [N10 R10] := mul_coeff_ok m1 N9. have [N11 R11] := hadd_ok Ng N10. have [N12 C12 D12] := mod_ok M1 N11.
set g' := mod_coeff (m * m) (hadd g _) in N12 C12 D12 *.
have [N13 R13] := mul_coeff_ok m1 N5'. have [N14 R14] := hadd_ok Nh N13. have [N15 C15 D15] := mod_ok M1 N14.
set h' := mod_coeff (m * m) (hadd h0 _) in N15 C15 D15 *.
have [l' Eh'] : exists l', h' = (eh, 1%CZ) :: l'.
  have Nlh := n_tl Nh. have [N16 R16] := hadd_ok Nlh N13.
  apply: (@monic_of eh h' (hadd lh (mul_coeff m r)) (m * m)%CZ) => //.
  - rewrite R16 addrA. have -> : 'X^(Z.to_nat eh) + T lh = T h0 by rewrite /h0 T_cons scale1r. by rewrite -R14.
  - case EL : (hadd lh (mul_coeff m r)) N16 R16 => [|[e c] l] N16 R16 u //= Hu.
    have X : (e < eh)%CZ.
      have [/= He Hc] := n_in N16 (or_introl erefl). apply/Z.nle_gt => L. apply: Hc. rewrite -(T_top N16) R16 coefD !T_high ?addr0 //.
      + move=> v /List.in_map_iff[w [<- Hw]] /=. have := H5 _ Hw. move: He L. clear. lia.
      + move=> v Hv. have := n_head Nh Hv. move: He L. clear. lia.
    case: Hu => [<-|Hu] //=. have := n_head N16 Hu. move: X. clear. lia.
have Cg : cgz m (T g') (T g).
  apply: (cgz_trans (cgz_weak C12)). rewrite R11 R10. exists (T tau). by [].
have Ch : cgz m (T h') (T h0).
  apply: (cgz_trans (cgz_weak C15)). rewrite R14 R13. exists (T r). by [].
have P1 : cgz (m * m)%CZ (T f) (T g' * T h').
  have [x4 C12'] := cgz_sq C12. have [x5 C15'] := cgz_sq C15. apply: cg_sq.
  apply: (step_prod _ _ _ _ _ _ _ RT _ _ (T g) (T h0) (T s) (T t) b e0 _ x1 (T q) (T r) x2 (T tau) x3 _ x4 _ x5 Ef C3 Eb _ _ _ _).
  - by rewrite -[Pmul (T s) _]R4.
  - by rewrite C9 R8 R6 R7.
  - by rewrite C12' R11 R10.
  - by rewrite C15' R14 R13.
rewrite Eh'. rewrite Eh' in N15 Ch P1 D15. set h1 := (eh, 1%CZ) :: l' in N15 Ch P1 D15 *.
have [sg [E20 N20 R20]] := hmul_ok Ns N12. rewrite E20 /=. have [th [E21 N21 R21]] := hmul_ok Nt N15. rewrite E21 /=.
have [N22 R22] := hsub_ok unz1 N20. have [N23 R23] := hsub_ok N22 N21.
have [e1 B1] : cgz m 1 (T s * T g' + T t * T h1).
  apply: cgz_sym. apply: (@cgz_trans m (T s * T g + T t * T h0)); last by exists b.
  apply: cgz_add; apply: cgz_mul => //; exact: cgz_refl.
have [|N24 [y1 C24]] := @div_ok m _ e1 m1 N23.
  by rewrite R23 R22 T1 R20 R21 [in LHS]B1 /Padd /Pmul -addrA -opprD addrC addKr.
have [sep [E25 N25 R25]] := hmul_ok Ns N24. rewrite E25 /=.
have [q2 [r2 [E26 N26 N26' [y2 C26] _]]] := divmod_ok m1 N25 N15. rewrite -/h1 in E26 C26. rewrite E26 /=.
have [tep [E27 N27 R27]] := hmul_ok Nt N24. rewrite E27 /=. have [qpg [E28 N28 R28]] := hmul_ok N26 N12. rewrite E28 /=.
have [N29 R29] := hadd_ok N27 N28. have [N30 [y3 C30] _] := mod_ok m1 N29. set tau2 := mod_coeff m (hadd tep qpg) in N30 C30 *.
have [N31 R31] := mul_coeff_ok m1 N26'. have [N32 R32] := hadd_ok Ns N31. have [N33 C33 _] := mod_ok M1 N32.
have [N34 R34] := mul_coeff_ok m1 N30. have [N35 R35] := hadd_ok Nt N34. have [N36 C36 _] := mod_ok M1 N35.
exists g', h1, (mod_coeff (m * m) (hadd s (mul_coeff m r2))), (mod_coeff (m * m) (hadd t (mul_coeff m tau2))).
split=> //; first by split=> //; exists eh, l'.
have [y4 C33'] := cgz_sq C33. have [y5 C36'] := cgz_sq C36. apply: cg_sq.
apply: (step_bezout _ _ _ _ _ _ _ RT m%:P (T g') (T h1) (T s) (T t) e1 _ y1 (T q2) (T r2) y2 (T tau2) y3 _ y4 _ y5 _ C24 _ _ _ _).
- rewrite /Psub /Pmul [in LHS]B1 /Padd /Pmul -addrA -opprD addrC addKr //.
- by rewrite -[Pmul (T s) _]R25.
- by rewrite C30 R29 R27 R28.
- by rewrite C33' R32 R31.
- by rewrite C36' R35 R34.
Qed.
End Inv.
