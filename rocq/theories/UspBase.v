(** * The polynomials and rationals of the model of realroot.cc seen over a real closed field. *)
From Verif Require Import Prelude Coef Spec SpecProofs GcdPoly GcdProofs MonoStruct MonoStructProofs OrderSpec PairVec PairVecProofs Heap Poly
  PolyMulProofs PolyOps ConvertProofs QQ QQProofs UGcdBase Uspensky RootBound.
From mathcomp Require Import all_ssreflect all_algebra ssrZ polyrcf.
From Verif Require Import UspMath.
Import Order.TTheory GRing.Theory Num.Theory.
Set Implicit Arguments.
Unset Strict Implicit.
Local Open Scope ring_scope.
Delimit Scope Z_scope with CZ.
Local Notation unorm := (normal uok (m_gt uniS) Zc).
Local Notation HKz := (domain_ring Zc Zc_domain).

(** ** {poly Z} *)
Lemma toP_req (p q : rpoly Z) : req Zc p q -> toP p = toP q.
Proof.
move=> E. rewrite /toP. have HKp := PZ_ring.
have E' := rmapc_proper Zc PZ (fun c : Z => c%:P) (erefl _) (fun a b => polyCD a b) _ _ E.
rewrite !(reval_rsum PZ). exact: (rsum_req PZ HKp _ _ _ _ E').
Qed.
Lemma toP_add (p q : rpoly Z) : toP (radd p q) = toP p + toP q.
Proof. rewrite /toP /rmapc /radd map_app. exact: (reval_add PZ PZ_ring). Qed.
Lemma toP_1 : toP (r1 Zc) = 1.
Proof. by rewrite /toP /= mulr1 addr0. Qed.
Lemma toP_pow (p : rpoly Z) n : toP (rpow Zc p n) = toP p ^+ n.
Proof. elim: n => [|n IH] /=; first by rewrite toP_1 expr0. by rewrite (toP_mul (p:=p) (q:=rpow Zc p n)) // IH exprS. Qed.
Lemma toP_cons e c (p : uz) : toP (graw usm ((e, c) :: p)) = c *: 'X^(Z.to_nat e) + toP (graw usm p).
Proof. rewrite /toP /= mulr1 cpow_X mul_polyC. by rewrite Z_N_nat. Qed.
Lemma toP_nil : toP (graw usm ([::] : uz)) = 0. Proof. by []. Qed.

Section R.
Variable R : rcfType.
Definition zr (c : Z) : R := (int_of_Z c)%:~R.
Lemma zr_is_rmorphism : rmorphism zr.
Proof.
split; first by move=> a b; rewrite /zr raddfB /= rmorphB.
by split=> [a b|]; rewrite /zr ?rmorphM ?rmorph1.
Qed.
Canonical zr_additive := Additive zr_is_rmorphism.
Canonical zr_rmorphism := RMorphism zr_is_rmorphism.
Lemma zr_nat n : zr (Z.of_nat n) = n%:R.
Proof. by rewrite /zr; case: n => [|n] //=; rewrite SuccNat2Pos.id_succ. Qed.
Lemma zr_lt0 c : (0 < c)%CZ -> 0 < zr c.
Proof. move=> H. have H0 : (0 <= c)%CZ by lia. rewrite -(Z2Nat.id c H0) zr_nat ltr0n. lia. Qed.
Lemma zr_add a b : zr (a + b)%CZ = zr a + zr b. Proof. exact: (rmorphD zr_rmorphism). Qed.
Lemma zr_mul a b : zr (a * b)%CZ = zr a * zr b. Proof. exact: (rmorphM zr_rmorphism). Qed.
Lemma zr_opp a : zr (- a)%CZ = - zr a. Proof. exact: (rmorphN zr_rmorphism). Qed.
Lemma zr_0 : zr 0%CZ = 0. Proof. by []. Qed.
Lemma zr_1 : zr 1%CZ = 1. Proof. by []. Qed.
Lemma zr_2 : zr 2%CZ = 2%:R. Proof. exact: (zr_nat 2). Qed.
Lemma zr_lt a b : (zr a < zr b) = (a <? b)%CZ.
Proof.
have L x y : (x < y)%CZ -> zr x < zr y.
  move=> H. rewrite -subr_gt0 -zr_opp -zr_add. apply: zr_lt0. lia.
case: (Z.ltb_spec a b) => H; first exact: L. apply/negbTE. rewrite -leNgt le_eqVlt.
case: (Z.eq_dec a b) => [->|N]; first by rewrite eqxx. by rewrite L ?orbT //; lia.
Qed.
Lemma zr_eq a b : (zr a == zr b) = (a =? b)%CZ.
Proof.
case: (Z.eqb_spec a b) => [->|N]; first by rewrite eqxx. apply/negbTE. rewrite neq_lt !zr_lt. lia.
Qed.
Lemma zr_le a b : (zr a <= zr b) = (a <=? b)%CZ.
Proof. rewrite leNgt zr_lt. lia. Qed.
Lemma zr_pow a n : (0 <= n)%CZ -> zr (a ^ n)%CZ = zr a ^+ (Z.to_nat n).
Proof.
move=> H. rewrite -{1}(Z2Nat.id n H). elim: (Z.to_nat n) => [|k IH] //.
by rewrite Nat2Z.inj_succ Z.pow_succ_r; [rewrite zr_mul IH exprS|lia].
Qed.

(** ** {poly R} *)
Definition tr (p : uz) : {poly R} := map_poly zr (toP (graw usm p)).
Lemma tr_nil : tr [::] = 0. Proof. by rewrite /tr toP_nil rmorph0. Qed.
Lemma tr_cons e c (p : uz) : tr ((e, c) :: p) = zr c *: 'X^(Z.to_nat e) + tr p.
Proof. by rewrite /tr toP_cons rmorphD /= linearZ /= map_polyXn. Qed.
Lemma tr_coef (p : uz) i : List.Forall (fun t => uok (fst t)) p -> (tr p)`_i = zr (coef Zc (graw usm p) (usm (Z.of_nat i))).
Proof. move=> H. by rewrite /tr coef_map /= toP_coef. Qed.
(** the value of the polynomial, written out *)
Definition ueval (p : uz) (x : R) : R := \sum_(t <- p) zr t.2 * x ^+ (Z.to_nat t.1).
Lemma tr_horner p x : (tr p).[x] = ueval p x.
Proof.
elim: p => [|[e c] p IH]; first by rewrite tr_nil horner0 /ueval big_nil.
by rewrite tr_cons hornerD hornerZ hornerXn IH /ueval big_cons.
Qed.

(** *** Normal forms *)
Lemma n_ok (p : uz) : unorm p -> List.Forall (fun t => uok (fst t)) p. Proof. by case. Qed.
Lemma n_in (p : uz) t : unorm p -> List.In t p -> (0 <= fst t)%CZ /\ snd t <> 0%CZ. Proof. exact: (unin Zc). Qed.
Lemma n_head (e c : Z) (p : uz) t : unorm ((e, c) :: p) -> List.In t p -> (0 <= fst t < e)%CZ.
Proof. exact: (uhead_lt Zc (e, c) p t). Qed.
Lemma n_tl t (p : uz) : unorm (t :: p) -> unorm p. Proof. exact: (unorm_tl Zc). Qed.
Lemma n_cons (e c : Z) (p : uz) : (0 <= e)%CZ -> c <> 0%CZ -> (forall t, List.In t p -> (fst t < e)%CZ) -> unorm p -> unorm ((e, c) :: p).
Proof.
move=> H0 Hc H N. apply/(normal_cons uok (m_gt uniS) Zc). split=> //. split=> //. split=> //. apply/List.Forall_forall => t Ht. rewrite /=. have := H t Ht. lia.
Qed.
Lemma n_nil : unorm ([::] : uz). Proof. by split; [|split]; constructor. Qed.

Lemma tr_high (p : uz) i : unorm p -> (forall t, List.In t p -> (fst t < Z.of_nat i)%CZ) -> (tr p)`_i = 0.
Proof.
elim: p => [|[e c] p IH] N H; first by rewrite tr_nil coef0.
rewrite tr_cons coefD coefZ coefXn IH; [|exact: n_tl N|by move=> t Ht; apply: H; right].
have := H (e, c) (or_introl erefl). have [/= He _] := n_in N (or_introl erefl). move=> L.
have -> : (i == Z.to_nat e) = false by apply/eqP; lia. by rewrite mulr0 addr0.
Qed.
Lemma tr_in (p : uz) e c : unorm p -> List.In (e, c) p -> (tr p)`_(Z.to_nat e) = zr c.
Proof.
elim: p => [|[e' c'] p IH] // N [[<- <-]|I].
- rewrite tr_cons coefD coefZ coefXn eqxx mulr1 tr_high ?addr0 //; first exact: n_tl N.
  have [/= He _] := n_in N (or_introl erefl). move=> t Ht. have := n_head N Ht. lia.
- rewrite tr_cons coefD coefZ coefXn IH //; last exact: n_tl N. have := n_head N I => /= L. have [/= He _] := n_in (n_tl N) I.
  have -> : (Z.to_nat e == Z.to_nat e') = false by apply/eqP; lia. by rewrite mulr0 add0r.
Qed.
Lemma tr_supp (p : uz) i : unorm p -> (tr p)`_i != 0 -> exists c, List.In (Z.of_nat i, c) p.
Proof.
elim: p => [|[e c] p IH] N; first by rewrite tr_nil coef0 eqxx.
rewrite tr_cons coefD coefZ coefXn. case: (i =P Z.to_nat e) => [E|_].
- move=> _. exists c. left. have [/= He _] := n_in N (or_introl erefl). by rewrite E Z2Nat.id.
- rewrite mulr0 add0r => /(IH (n_tl N)) [c' I]. exists c'. by right.
Qed.
Definition dg (p : uz) : nat := Z.to_nat (udeg p).
Lemma tr_size (p : uz) : unorm p -> p <> [::] -> size (tr p) = (dg p).+1.
Proof.
case: p => [|[e c] p] // N _. rewrite /dg /=. have [/= He Hc] := n_in N (or_introl erefl).
apply/eqP. rewrite eqn_leq. apply/andP. split.
- apply/leq_sizeP => j Hj. apply/eqP. apply: contraT => /(tr_supp N) [c' [[E _]|I]]; first lia.
  have := n_head N I => /=. lia.
- rewrite ltnNge. apply/negP => /leq_sizeP /(_ (Z.to_nat e) (leqnn _)) E. have := @tr_in ((e, c) :: p) e c N (or_introl erefl). rewrite E => /eqP.
  rewrite eq_sym -zr_0 zr_eq. lia.
Qed.
Lemma tr_neq0 (p : uz) : unorm p -> p <> [::] -> tr p != 0.
Proof. move=> N H. by rewrite -size_poly_eq0 tr_size. Qed.
Lemma tr_size_le (p : uz) : unorm p -> (size (tr p) <= (dg p).+1)%N.
Proof. case: p => [|t p] N; first by rewrite tr_nil size_poly0. by rewrite tr_size. Qed.

(** *** Arithmetic *)
Lemma upow_ok (p : uz) n : unorm p -> (0 <= n < 2 ^ 63)%CZ -> exists2 g, upow p n = Ok g & unorm g /\ tr g = tr p ^+ (Z.to_nat n).
Proof.
move=> N H. have HC : comp_all uniS uok usm Zc no_compress by move=> v1 v2 _ _.
have [g [E [Ng Eg]]] := p_pow_ok uniS uok usm Zc uniS_ok HKz Zc_domain no_compress HC p n N H.
exists g => //. split=> //. rewrite /tr -rmorphX /=. congr (map_poly _ _). by rewrite (toP_req Eg) toP_pow.
Qed.
Lemma umulz_ok (p q : uz) : unorm p -> unorm q -> exists2 g, umulz p q = Ok g & unorm g /\ tr g = tr p * tr q.
Proof.
move=> Np Nq. have HC : forall a b, comp_good uniS uok usm Zc no_compress a b by [].
have [g [E [Ng Eg]]] := p_mul_ok uniS uok usm Zc uniS_ok HKz Zc_domain no_compress p q (conj (HC _ _) (HC _ _)) Np Nq.
exists g => //. split=> //. rewrite /tr -rmorphM /=. congr (map_poly _ _). exact: toP_mul.
Qed.
Lemma uadd_ok (p q : uz) : unorm p -> unorm q -> unorm (uadd p q) /\ tr (uadd p q) = tr p + tr q.
Proof.
move=> Np Nq. split; first exact: (p_add_normal uniS uok usm Zc uniS_ok HKz).
rewrite /tr -rmorphD /=. congr (map_poly _ _). rewrite -toP_add. apply: toP_req. exact: (p_add_req uniS uok usm Zc uniS_ok HKz).
Qed.
(** changing the coefficients *)
Lemma n_map (f : Z -> Z -> Z) (p : uz) : (forall e c, (0 <= e)%CZ -> c <> 0%CZ -> f e c <> 0%CZ) -> unorm p ->
  unorm (map (fun t : Z * Z => (fst t, f (fst t) (snd t))) p).
Proof.
move=> Hf. elim: p => [|[e c] p IH] N //=. have [/= He Hc] := n_in N (or_introl erefl).
apply: n_cons => //; [exact: Hf| |exact: IH (n_tl N)].
move=> t /List.in_map_iff [u [<- Hu]] /=. have := n_head N Hu. lia.
Qed.
Lemma uscal_ok c (p : uz) : c <> 0%CZ -> unorm p -> unorm (uscal c p) /\ tr (uscal c p) = zr c *: tr p.
Proof.
move=> Hc N. split; first by apply: (n_map (f := fun _ a => (a * c)%CZ)) => // e a _ Ha; nia.
elim: p {N} => [|[e a] p IH] /=; first by rewrite tr_nil scaler0.
by rewrite !tr_cons IH scalerDr scalerA zr_mul mulrC.
Qed.
End R.
