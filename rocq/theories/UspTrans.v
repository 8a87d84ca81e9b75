(** * The transformations, the sign changes and the rationals of realroot.cc over a real closed field. *)
From Verif Require Import Prelude Coef Spec SpecProofs GcdPoly GcdProofs MonoStruct MonoStructProofs OrderSpec PairVec PairVecProofs Heap Poly
  PolyMulProofs PolyOps ConvertProofs QQ QQProofs UGcdBase Uspensky RootBound.
From mathcomp Require Import all_ssreflect all_algebra ssrZ polyrcf.
From Verif Require Import UspMath UspBase.
Import Order.TTheory GRing.Theory Num.Theory.
Set Implicit Arguments.
Unset Strict Implicit.
Local Open Scope ring_scope.
Delimit Scope Z_scope with CZ.
Local Notation unorm := (normal uok (m_gt uniS) Zc).
Local Notation HKz := (domain_ring Zc Zc_domain).

(** polynomials whose degree is an int64_t *)
Definition upoly (p : uz) : Prop := unorm p /\ p <> [::] /\ (udeg p < 2 ^ 63)%CZ.

Section R.
Variable R : rcfType.
Notation tr := (tr R).
Notation zr := (zr R).

Lemma deg_in (p : uz) t : unorm p -> List.In t p -> (0 <= fst t <= udeg p)%CZ /\ snd t <> 0%CZ.
Proof.
case: p => [|[e c] p] N // I. have [A B] := n_in N I. split=> //. move: A. case: I => [<-|I] /=; first lia. have := n_head N I. lia.
Qed.
Lemma moeb_add n (p q : {poly R}) : moeb n (p + q) = moeb n p + moeb n q.
Proof. rewrite /moeb -rmorphD /=. congr (_ \Po _). apply/polyP => i. rewrite coefD !revp_coef coefD. by case: ifP; rewrite ?addr0. Qed.
Lemma moeb_0 n : moeb n (0 : {poly R}) = 0.
Proof. by rewrite moeb_sum big1 // => i _; rewrite coef0 scale0r. Qed.
Lemma moeb_mono n (c : R) e : (e <= n)%N -> moeb n (c *: 'X^e) = c *: (1%:P + 'X) ^+ (n - e).
Proof.
move=> H. rewrite moeb_sum (bigD1 (Ordinal (H : e < n.+1)%N)) //= coefZ coefXn eqxx mulr1 big1 ?addr0 // => i.
rewrite -val_eqE /= => /negbTE E. by rewrite coefZ coefXn E mulr0 scale0r.
Qed.
Lemma xp1_n : unorm xp1.
Proof. apply: n_cons => //; first by move=> t [<-|]. apply: n_cons => //. exact: n_nil. Qed.
Lemma tr_xp1 : tr xp1 = 1%:P + 'X.
Proof. by rewrite /xp1 !tr_cons tr_nil expr0 expr1 addr0 zr_1 !scale1r addrC. Qed.

Lemma to_inf_ok (G : uz) : unorm G -> (udeg G < 2 ^ 63)%CZ -> exists2 g, to_inf G = Ok g & unorm g /\ tr g = moeb (dg G) (tr G).
Proof.
move=> N D. case: G N D => [|t G] N D.
  by exists [::] => //; split=> //; rewrite tr_nil moeb_0.
rewrite /to_inf /dg. set m := udeg (t :: G) in D *.
have H : forall L g, (forall u, List.In u L -> (0 <= fst u <= m)%CZ /\ snd u <> 0%CZ) -> unorm g ->
  exists2 h, to_inf_loop m L g = Ok h & unorm h /\ tr h = tr g + moeb (Z.to_nat m) (tr L).
  elim=> [|[e c] L IH] g HL Ng /=; first by exists g => //; split=> //; rewrite tr_nil moeb_0 addr0.
  have [/= He Hc] := HL _ (or_introl erefl).
  have Hm : (0 <= m - e < 2 ^ 63)%CZ by lia.
  have [g_ -> [Ng_ Eg_]] /= := upow_ok R xp1_n Hm.
  have [Ns Es] := uscal_ok R Hc Ng_. have [Na Ea] := uadd_ok R Ng Ns.
  have [h -> [Nh Eh]] := IH _ (fun u Hu => HL u (or_intror Hu)) Na. exists h => //. split=> //.
  rewrite Eh Ea Es Eg_ tr_xp1 tr_cons moeb_add moeb_mono; last lia. rewrite addrA. congr (_ + _ *: _ ^+ _ + _). lia.
have [h -> [Nh Eh]] := H (t :: G) [::] (fun u Hu => deg_in N Hu) n_nil. exists h => //. split=> //. by rewrite Eh tr_nil add0r.
Qed.

Lemma half_left_ok (G : uz) : unorm G -> unorm (half_left G) /\ udeg (half_left G) = udeg G /\ tr (half_left G) = lh (dg G) (tr G) /\ (half_left G = [::] <-> G = [::]).
Proof.
move=> N. rewrite /half_left /dg. have HD := fun t Ht => deg_in (t := t) N Ht.
split; [|split; [by case: (G) => [|[]]|split; last by case: (G)]]; move: (udeg G) HD => m HD.
- elim: G N HD => [|[e c] G IH] N HD //=. have [/= He Hc] := HD _ (or_introl erefl).
  apply: n_cons => //; [lia| | |].
  + have : (0 < 2 ^ (m - e))%CZ by apply: Z.pow_pos_nonneg; lia. nia.
  + move=> t /List.in_map_iff [u [<- Hu]] /=. have := n_head N Hu. lia.
  + exact: (IH (n_tl N) (fun t Ht => HD t (or_intror Ht))).
- elim: G {N} HD => [|[e c] G IH] HD /=; first by rewrite tr_nil /lh comp_poly0 scaler0.
  have [/= He Hc] := HD _ (or_introl erefl).
  rewrite !tr_cons (IH (fun t Ht => HD t (or_intror Ht))) /lh comp_polyD scalerDr. congr (_ + _).
  rewrite comp_polyZ rmorphX /= comp_polyX exprZn scalerA scalerA zr_mul zr_pow; last lia. rewrite zr_2 Z2Nat.inj_sub; last lia.
  congr (_ *: _). rewrite [RHS]mulrAC mulrC. congr (_ * _). rewrite exprVn.
  have L : (Z.to_nat e <= Z.to_nat m)%N by lia. by rewrite -{2}(subnK L) exprD mulfK // expf_neq0 // n2.
Qed.

Lemma rh_add n (p q : {poly R}) : rh n (p + q) = rh n p + rh n q.
Proof. by rewrite /rh comp_polyD [LHS]scalerDr. Qed.
Lemma half_right_ok (G : uz) : unorm G -> (udeg G < 2 ^ 63)%CZ -> exists2 g, half_right G = Ok g & unorm g /\ tr g = rh (dg G) (tr G).
Proof.
move=> N D. case: G N D => [|t G] N D.
  by exists [::] => //; split=> //; rewrite tr_nil /rh comp_poly0 scaler0.
rewrite /half_right /dg. set m := udeg (t :: G) in D *.
have H : forall L g, (forall u, List.In u L -> (0 <= fst u <= m)%CZ /\ snd u <> 0%CZ) -> unorm g ->
  exists2 h, half_right_loop m L g = Ok h & unorm h /\ tr h = tr g + rh (Z.to_nat m) (tr L).
  elim=> [|[e c] L IH] g HL Ng /=; first by exists g => //; split=> //; rewrite tr_nil /rh comp_poly0 scaler0 addr0.
  have [/= He Hc] := HL _ (or_introl erefl).
  have Hm : (0 <= e < 2 ^ 63)%CZ by lia.
  have Hp : (c * 2 ^ (m - e) <> 0)%CZ by have : (0 < 2 ^ (m - e))%CZ by [apply: Z.pow_pos_nonneg; lia]; nia.
  have [g_ -> [Ng_ Eg_]] /= := upow_ok R xp1_n Hm.
  have [Ns Es] := uscal_ok R Hp Ng_. have [Na Ea] := uadd_ok R Ng Ns.
  have [h -> [Nh Eh]] := IH _ (fun u Hu => HL u (or_intror Hu)) Na. exists h => //. split=> //.
  rewrite Eh Ea Es Eg_ tr_xp1 tr_cons rh_add addrA. congr (_ + _ + _). rewrite /rh.
  rewrite comp_polyZ rmorphX /= comp_polyX exprZn !scalerA zr_mul zr_pow; last lia. rewrite zr_2 Z2Nat.inj_sub; last lia.
  congr (_ *: _). rewrite [RHS]mulrAC mulrC. congr (_ * _). rewrite exprVn.
  have Le : (Z.to_nat e <= Z.to_nat m)%N by lia. by rewrite -{2}(subnK Le) exprD mulfK // expf_neq0 // n2.
have [h -> [Nh Eh]] := H (t :: G) [::] (fun u Hu => deg_in N Hu) n_nil. exists h => //. split=> //. by rewrite Eh tr_nil add0r.
Qed.
Lemma half_right_deg (G g : uz) : unorm G -> G <> [::] -> unorm g -> tr g = rh (dg G) (tr G) -> g <> [::] /\ udeg g = udeg G.
Proof.
move=> N Ne Ng E. have S : size (tr g) = (dg G).+1.
  rewrite E /rh size_scale ?expf_neq0 ?n2 // size_comp_poly2 ?tr_size // size_scale ?n2' // size_1X //.
have g0 : g <> [::] by move=> E0; move: S; rewrite E0 tr_nil size_poly0.
split=> //. move: S. rewrite tr_size // => -[]. rewrite /dg.
have U (p : uz) : unorm p -> (0 <= udeg p)%CZ. { case: p => [|t p] M //=. have := n_in M (or_introl erefl). tauto. }
have := U _ N. have := U _ Ng. lia.
Qed.

Lemma b_to_1_ok (G : uz) B : unorm G -> B <> 0%CZ -> unorm (b_to_1 G B) /\ udeg (b_to_1 G B) = udeg G /\ tr (b_to_1 G B) = tr G \Po (zr B *: 'X) /\ (b_to_1 G B = [::] <-> G = [::]).
Proof.
move=> N HB. split.
  apply: (n_map (f := fun e a => (a * B ^ e)%CZ)) => // e c He Hc. have : (B ^ e <> 0)%CZ by apply: Z.pow_nonzero. nia.
split; first by case: (G) => [|[]]. split; last by case: (G).
elim: G N => [|[e c] G IH] N /=; first by rewrite tr_nil comp_poly0.
rewrite !tr_cons (IH (n_tl N)) comp_polyD. congr (_ + _). have [/= He _] := n_in N (or_introl erefl).
by rewrite comp_polyZ rmorphX /= comp_polyX exprZn scalerA zr_mul zr_pow.
Qed.

(** ** Sign changes *)
Definition allpos (L : uz) := forall t, List.In t L -> (0 < snd t)%CZ.
Definition allneg (L : uz) := forall t, List.In t L -> (snd t < 0)%CZ.
Definition nzs (L : uz) := forall t, List.In t L -> snd t <> 0%CZ.
Lemma csc_cons t u (L : uz) : coeffsignchanges (t :: u :: L) = ((if (Z.sgn (snd t) * Z.sgn (snd u) <? 0)%CZ then 1 else 0) + coeffsignchanges (u :: L))%N.
Proof. by []. Qed.
Lemma csc0 (L : uz) : nzs L -> coeffsignchanges L = 0%N <-> allpos L \/ allneg L.
Proof.
elim: L => [|t L IH] H; first by split=> // _; left => t.
have Ht := H t (or_introl erefl). case: L IH H => [|u L] IH H.
  split=> // _. case: (Z.lt_total 0 (snd t)) => [A|[A|A]]; [left|lia|right]; by move=> v [<-|].
have Hu := H u (or_intror (or_introl erefl)). rewrite csc_cons. have IH' := IH (fun v Hv => H v (or_intror Hv)).
case: (Z.ltb_spec (Z.sgn (snd t) * Z.sgn (snd u)) 0) => S.
  split=> // -[] A; have A1 := A t (or_introl erefl); have A2 := A u (or_intror (or_introl erefl)); lia.
rewrite add0n IH'. split=> -[] A; [left|right|left|right]; try by move=> v Hv; apply: A; right.
- have A2 := A u (or_introl erefl). move=> v [<-|Hv]; [lia|exact: A].
- have A2 := A u (or_introl erefl). move=> v [<-|Hv]; [lia|exact: A].
Qed.
Definition split1 (L : uz) := exists L1 L2, L = L1 ++ L2 /\ ((allpos L1 /\ allneg L2) \/ (allneg L1 /\ allpos L2)).
Lemma csc1 (L : uz) : nzs L -> (coeffsignchanges L <= 1)%N <-> split1 L.
Proof.
elim: L => [|t L IH] H; first by split=> // _; exists [::], [::]; split=> //; left; split=> t.
have Ht := H t (or_introl erefl). case: L IH H => [|u L] IH H.
  split=> // _. exists [:: t], [::]. split=> //. case: (Z.lt_total 0 (snd t)) => [A|[A|A]]; [left|lia|right]; split=> v //; by case=> [<-|].
have Hu := H u (or_intror (or_introl erefl)). have HL : nzs (u :: L) by move=> v Hv; apply: H; right.
rewrite csc_cons. have IH' := IH HL.
case: (Z.ltb_spec (Z.sgn (snd t) * Z.sgn (snd u)) 0) => S.
- rewrite add1n ltnS leqn0. split.
  + move/eqP/(csc0 HL) => A. exists [:: t], (u :: L). split=> //.
    case: A => A; have A2 := A u (or_introl erefl); [right|left]; split=> // v [<-|] //; lia.
  + case=> [[|t1 L1]] [L2 [/= E A]]. 
    * exfalso. move: A. rewrite -E => -[] [_ A]; have A1 := A t (or_introl erefl); have A2 := A u (or_intror (or_introl erefl)); lia.
    * case: E => E1 E2; subst t1. case: L1 E2 A => [|u' L1] /= E2 A.
        apply/eqP/(csc0 HL). rewrite E2. case: A => [[_ A]|[_ A]]; [right|left]; exact: A.
      case: E2 => E3 E2. subst u'. exfalso. case: A => -[A _]; have A1 := A t (or_introl erefl); have A2 := A u (or_intror (or_introl erefl)); lia.
- rewrite add0n. split.
  + move/IH' => [L1 [L2 [E A]]]. case: L1 E A => [|u' L1] /= E A.
    * exists [::], (t :: u :: L). split=> //. case: A => -[_ A]; rewrite -E in A; have A2 := A u (or_introl erefl); [left|right]; split=> // v [<-|Hv]; try lia; exact: A.
    * case: E => E1 E2. subst u'. exists (t :: u :: L1), L2. split; first by rewrite E2.
      case: A => -[A B]; have A2 := A u (or_introl erefl); [left|right]; split=> // v [<-|Hv]; try lia; exact: A.
  + move=> [L1 [L2 [E A]]]. apply/IH'. case: L1 E A => [|t1 L1] /= E A.
    * exists [::], (u :: L). split=> //. case: A => -[_ A]; [left|right]; split=> // v Hv; apply: A; rewrite -E; by right.
    * case: E => E1 E2. exists L1, L2. split=> //. case: A => -[A B]; [left|right]; split=> // v Hv; apply: A; by right.
Qed.

Lemma zr_ge0 c : (0 <= zr c) = (0 <=? c)%CZ. Proof. exact: (zr_le R 0 c). Qed.
Lemma zr_le0 c : (zr c <= 0) = (c <=? 0)%CZ. Proof. exact: (zr_le R c 0). Qed.
Lemma nonneg_list (p : uz) : unorm p -> nonneg (tr p) <-> allpos p.
Proof.
move=> N. split.
- move=> H [e c] I /=. have := H (Z.to_nat e). rewrite (tr_in R N I) zr_ge0. have [_ /= ] := n_in N I. lia.
- move=> H i. case: (altP ((tr p)`_i =P 0)) => [->|] // /(tr_supp N) [c I]. have := H _ I => /= Hc.
  rewrite -(Nat2Z.id i) (tr_in R N I) zr_ge0. lia.
Qed.
Lemma nonpos_list (p : uz) : unorm p -> nonneg (- tr p) <-> allneg p.
Proof.
move=> N. split.
- move=> H [e c] I /=. have := H (Z.to_nat e). rewrite coefN (tr_in R N I) oppr_ge0 zr_le0. have [_ /= ] := n_in N I. lia.
- move=> H i. rewrite coefN. case: (altP ((tr p)`_i =P 0)) => [->|]; first by rewrite oppr0. move/(tr_supp N) => [c I]. have := H _ I => /= Hc.
  rewrite -(Nat2Z.id i) (tr_in R N I) oppr_ge0 zr_le0. lia.
Qed.
Lemma n_nzs (p : uz) : unorm p -> nzs p. Proof. move=> N t /(n_in N) []. by []. Qed.
Theorem signs0 (p : uz) : unorm p -> coeffsignchanges p = 0%N <-> same (tr p).
Proof. move=> N. rewrite (csc0 (n_nzs N)) /same nonneg_list // nonpos_list //. Qed.

(** a list in decreasing order of exponents splits at any exponent *)
Lemma desc_split (p : uz) (t : Z) : unorm p -> exists L1 L2, p = L1 ++ L2 /\ (forall u, List.In u L1 -> (t <= fst u)%CZ) /\ (forall u, List.In u L2 -> (fst u < t)%CZ).
Proof.
elim: p => [|[e c] p IH] N; first by exists [::], [::].
case: (Z.lt_ge_cases e t) => L.
- exists [::], ((e, c) :: p). split=> //. split=> // u [<-|Hu] //=. have := n_head N Hu. lia.
- have [L1 [L2 [E [A B]]]] := IH (n_tl N). exists ((e, c) :: L1), L2. split; first by rewrite E. split=> // u [<-|Hu] //=. exact: A.
Qed.
Lemma desc_app (L1 L2 : uz) u v : unorm (L1 ++ L2) -> List.In u L1 -> List.In v L2 -> (fst v < fst u)%CZ.
Proof.
elim: L1 => [|[e c] L1 IH] //= N [<-|Hu] Hv /=; last exact: IH (n_tl N) Hu Hv.
have := @n_head _ _ (L1 ++ L2) v N (List.in_or_app _ _ _ (or_intror Hv)). lia.
Qed.
Theorem signs1 (p : uz) : unorm p -> (coeffsignchanges p <= 1)%N <-> one (tr p).
Proof.
move=> N. rewrite (csc1 (n_nzs N)). split.
- move=> [L1 [L2 [E A]]].
  pose t := (if L2 is u :: _ then (fst u + 1)%CZ else 0%CZ).
  have T1 u : List.In u L1 -> (t <= fst u)%CZ.
    move=> Hu. rewrite /t. case: L2 E {A t} => [|v L2] E.
      have : List.In u p by rewrite E; apply: List.in_or_app; left. move/(n_in N). tauto.
    have := @desc_app L1 (v :: L2) u v. rewrite -E => /(_ N Hu (or_introl erefl)). lia.
  have T2 u : List.In u L2 -> (fst u < t)%CZ.
    rewrite /t. case: L2 E {A t T1} => [|[e c] L2] E // [<-|Hu] /=; first lia.
    have N2 : unorm ((e, c) :: L2). { move: N. rewrite E. elim: L1 {E} => [|x L1 IH] //= M. exact: IH (n_tl M). }
    have := n_head N2 Hu. lia.
  have T0 : (0 <= t)%CZ. { rewrite /t. case: L2 E {A t T1 T2} => [|v L2] E //. have : List.In v p by rewrite E; apply: List.in_or_app; right; left. move/(n_in N). lia. }
  have C i : (tr p)`_i != 0 -> exists2 u, ((Z.of_nat i >= t)%CZ /\ List.In u L1) \/ ((Z.of_nat i < t)%CZ /\ List.In u L2) & (tr p)`_i = zr (snd u).
    move/(tr_supp N) => [c I]. exists (Z.of_nat i, c); last by rewrite -{1}(Nat2Z.id i) (tr_in R N I).
    have := I. rewrite E => /List.in_app_iff [J|J]; [left|right]; split=> //; [have := T1 _ J|have := T2 _ J] => /=; lia.
  case: A => -[A B]; [left|right]; exists (Z.to_nat t); split=> i Hi; rewrite ?coefN ?oppr_ge0 ?oppr_le0.
  + case: (altP ((tr p)`_i =P 0)) => [->|] // /C [u [[L J]|[L J]] ->]; [rewrite zr_ge0; have := A _ J; lia|lia].
  + case: (altP ((tr p)`_i =P 0)) => [->|] // /C [u [[L J]|[L J]] ->]; [lia|rewrite zr_le0; have := B _ J; lia].
  + case: (altP ((tr p)`_i =P 0)) => [->|] // /C [u [[L J]|[L J]] ->]; [rewrite zr_le0; have := A _ J; lia|lia].
  + case: (altP ((tr p)`_i =P 0)) => [->|] // /C [u [[L J]|[L J]] ->]; [lia|rewrite zr_ge0; have := B _ J; lia].
- move=> H. case: H => -[t [A B]]; have [L1 [L2 [E [T1 T2]]]] := desc_split (Z.of_nat t) N; exists L1, L2; split=> //; [left|right]; split=> -[e c] J.
  all: have I : List.In (e, c) p by rewrite E; apply: List.in_or_app; auto.
  all: have [/= E0 C0] := n_in N I.
  + have := T1 _ J => /= L. have := A (Z.to_nat e). rewrite (tr_in R N I) zr_ge0. lia.
  + have := T2 _ J => /= L. have := B (Z.to_nat e). rewrite (tr_in R N I) zr_le0. lia.
  + have := T1 _ J => /= L. have := A (Z.to_nat e). rewrite coefN (tr_in R N I) oppr_ge0 zr_le0. lia.
  + have := T2 _ J => /= L. have := B (Z.to_nat e). rewrite coefN (tr_in R N I) oppr_le0 zr_ge0. lia.
Qed.
End R.
