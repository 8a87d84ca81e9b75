(** * Squarefree and coprime integer polynomials have coprime images over the reals. *)
From Verif Require Import Prelude Coef Spec SpecProofs GcdPoly GcdProofs MonoStruct MonoStructProofs OrderSpec PairVec PairVecProofs Heap Poly
  PolyMulProofs PolyOps ConvertProofs QQ NumSpec QQProofs UGcdBase Uspensky RootBound.
From mathcomp Require Import all_ssreflect all_algebra ssrZ polyrcf separable.
From Verif Require Import UspMath UspBase UspTrans.
Import Order.TTheory GRing.Theory Num.Theory.
Set Implicit Arguments.
Unset Strict Implicit.
Local Open Scope ring_scope.
Delimit Scope Z_scope with CZ.
Local Notation unorm := (normal uok (m_gt uniS) Zc).

(** the value at an integer *)
Definition zval (p : uz) (x : Z) : Z := fold_right (fun t s => (snd t * x ^ fst t + s)%CZ) 0%CZ p.
Definition itr (p : uz) : {poly int} := \sum_(t <- p) int_of_Z t.2 *: 'X^(Z.to_nat t.1).
Lemma itr_cons e c p : itr ((e, c) :: p) = int_of_Z c *: 'X^(Z.to_nat e) + itr p. Proof. by rewrite /itr big_cons. Qed.
Lemma iz_add a b : int_of_Z (a + b)%CZ = int_of_Z a + int_of_Z b. Proof. exact: (rmorphD [rmorphism of int_of_Z]). Qed.
Lemma iz_mul a b : int_of_Z (a * b)%CZ = int_of_Z a * int_of_Z b. Proof. exact: (rmorphM [rmorphism of int_of_Z]). Qed.
Lemma iz_pow a n : (0 <= n)%CZ -> int_of_Z (a ^ n)%CZ = int_of_Z a ^+ (Z.to_nat n).
Proof.
move=> H. rewrite -{1}(Z2Nat.id n H). elim: (Z.to_nat n) => [|k IH]; first by rewrite expr0.
rewrite Nat2Z.inj_succ Z.pow_succ_r; last lia. by rewrite iz_mul IH exprS.
Qed.
Lemma itr_horner p x : List.Forall (fun t => uok (fst t)) p -> (itr p).[int_of_Z x] = int_of_Z (zval p x).
Proof.
elim: p => [|[e c] p IH] H; first by rewrite /itr big_nil horner0.
inversion H as [|t l e0 H']; subst. rewrite itr_cons hornerD hornerZ hornerXn (IH H') /= iz_add iz_mul iz_pow //.
Qed.
Lemma itr_tr (R : rcfType) p : tr R p = map_poly intr (itr p).
Proof.
elim: p => [|[e c] p IH]; first by rewrite tr_nil /itr big_nil rmorph0.
by rewrite tr_cons itr_cons rmorphD /= IH map_polyZ map_polyXn.
Qed.

(** the list of an integer polynomial *)
Fixpoint ulist (n : nat) (p : {poly int}) : uz :=
  match n with
  | O => [::]
  | k.+1 => if p`_k == 0 then ulist k p else (Z.of_nat k, Z_of_int p`_k) :: ulist k p
  end.
Lemma ulist_lt n p t : List.In t (ulist n p) -> (fst t < Z.of_nat n)%CZ.
Proof.
elim: n => [|k IH] //=. case: ifP => _; first by move/IH; lia. case=> [<- /=|/IH]; lia.
Qed.
Lemma ulist_norm n p : unorm (ulist n p).
Proof.
elim: n => [|k IH] /=; first exact: n_nil. case: ifP => // N. apply: n_cons => //; [lia| |exact: ulist_lt].
move=> E. move: N. by rewrite -(Z_of_intK p`_k) E.
Qed.
Lemma ulist_coef n p i : (itr (ulist n p))`_i = if (i < n)%N then p`_i else 0.
Proof.
elim: n => [|k IH] /=; first by rewrite /itr big_nil coef0.
case: ifP => [/eqP E|_].
- rewrite IH ltnS (leq_eqVlt i k). case: eqP => [Ei|//]. rewrite Ei ltnn /=. by rewrite E.
- rewrite itr_cons coefD coefZ coefXn Z_of_intK Nat2Z.id IH ltnS (leq_eqVlt i k). case: eqP => [->|_] /=; rewrite ?ltnn ?mulr1 ?addr0 // mulr0 add0r. by [].
Qed.
Lemma itr_ulist n (p : {poly int}) : (size p <= n)%N -> itr (ulist n p) = p.
Proof. move=> H. apply/polyP => i. rewrite ulist_coef. case: ltnP => // L. by rewrite nth_default // (leq_trans H). Qed.
Lemma ulist_number n p : u_is_number (ulist n p) -> (size (itr (ulist n p)) <= 1)%N.
Proof.
case: (ulist n p) => [|[e c] [|t l]] //=; first by rewrite /itr big_nil size_poly0.
move/Z.eqb_eq => /= ->. rewrite itr_cons /itr big_nil addr0 expr0 alg_polyC. exact: size_polyC_leq1.
Qed.

Definition sqfree (G : uz) : Prop := forall h r, unorm h -> unorm r -> (forall x, zval G x = (zval h x * zval h x * zval r x)%CZ) -> u_is_number h.
Definition nocommon (G H : uz) : Prop := forall h r s, unorm h -> unorm r -> unorm s ->
  (forall x, zval G x = (zval h x * zval r x)%CZ) -> (forall x, zval H x = (zval h x * zval s x)%CZ) -> u_is_number h.

Lemma sq_int (G : uz) (u r : {poly int}) : unorm G -> sqfree G -> itr G = u * u * r -> (size u <= 1)%N.
Proof.
move=> N S E. rewrite -(itr_ulist (leqnn (size u))). apply: ulist_number. apply: (S _ (ulist (size r) r)); try exact: ulist_norm.
move=> x. apply: (can_inj int_of_ZK). rewrite !iz_mul -!itr_horner; try exact: n_ok; try exact: n_ok (ulist_norm _ _). by rewrite !itr_ulist // E !hornerM.
Qed.
Lemma co_int (G H : uz) (u r s : {poly int}) : unorm G -> unorm H -> nocommon G H -> itr G = u * r -> itr H = u * s -> (size u <= 1)%N.
Proof.
move=> N M C E1 E2. rewrite -(itr_ulist (leqnn (size u))). apply: ulist_number. apply: (C _ (ulist (size r) r) (ulist (size s) s)); try exact: ulist_norm.
all: move=> x; apply: (can_inj int_of_ZK); rewrite !iz_mul -!itr_horner; try exact: n_ok; try exact: n_ok (ulist_norm _ _); by rewrite !itr_ulist // ?E1 ?E2 !hornerM.
Qed.
Lemma tr_rat (R : rcfType) p : tr R p = map_poly ratr (map_poly (intr : int -> rat) (itr p)).
Proof. rewrite itr_tr -map_poly_comp. apply: eq_map_poly => z /=. by rewrite ratr_int. Qed.

Lemma nocommon_coprime (R : rcfType) (G H : uz) : unorm G -> unorm H -> G <> [::] -> nocommon G H -> coprimep (tr R G) (tr R H).
Proof.
move=> N M Ne C. have G0 : itr G != 0. { apply/eqP => E. have := tr_neq0 R N Ne. by rewrite itr_tr E rmorph0 eqxx. }
rewrite !tr_rat coprimep_map. set g := map_poly _ (itr G). set h := map_poly _ (itr H).
have g0 : g != 0 by rewrite map_poly_eq0_id0 // intr_eq0 lead_coef_eq0.
have [u [a a0 Eu]] := rat_poly_scale (gcdp g h).
have u_dvd : forall q : {poly int}, gcdp g h %| map_poly (intr : int -> rat) q -> exists r, q = zprimitive u * r.
  move=> q. rewrite Eu dvdpZl ?invr_eq0 ?intr_eq0 // dvdp_rat_int => /dvdpP_int [r ->]. by exists r.
have [r Er] := u_dvd _ (dvdp_gcdl g h). have [s Es] := u_dvd _ (dvdp_gcdr g h).
have := co_int N M C Er Es. rewrite size_zprimitive => S1.
rewrite coprimep_def Eu size_scale ?invr_eq0 ?intr_eq0 // size_map_poly_id0; last first.
  rewrite intr_eq0 lead_coef_eq0. apply/eqP => U0. move: G0. by rewrite Er U0 zprimitive0 mul0r eqxx.
rewrite eqn_leq S1 size_poly_gt0 /=. apply/eqP => U0. move: G0. by rewrite Er U0 zprimitive0 mul0r eqxx.
Qed.
Lemma sqfree_coprime (R : rcfType) (G : uz) : unorm G -> G <> [::] -> sqfree G -> coprimep (tr R G) (tr R G)^`().
Proof.
move=> N Ne S. have G0 : itr G != 0. { apply/eqP => E. have := tr_neq0 R N Ne. by rewrite itr_tr E rmorph0 eqxx. }
rewrite !tr_rat deriv_map coprimep_map. set g := map_poly _ (itr G).
have g0 : g != 0 by rewrite map_poly_eq0_id0 // intr_eq0 lead_coef_eq0.
suff : separable_poly g by []. apply/separable_polyP. split.
- apply/poly_square_freeP => u Su. apply/negP => D. have [v [a a0 Eu]] := rat_poly_scale u.
  have D2 : v ^+ 2 %| itr G.
    rewrite -dvdp_rat_int rmorphX /=. move: D. by rewrite Eu exprZn dvdpZl // expf_eq0 /= invr_eq0 intr_eq0.
  case: (dvdpP_int D2) => r Er. rewrite expr2 zprimitiveM in Er. have := sq_int N S Er. rewrite size_zprimitive => S1.
  have v0 : v != 0. { apply/eqP => V0. move: G0. by rewrite Er V0 zprimitive0 !mul0r eqxx. }
  move: Su. rewrite Eu size_scale ?invr_eq0 ?intr_eq0 // size_map_poly_id0 ?intr_eq0 ?lead_coef_eq0 // eqn_leq S1 size_poly_gt0 v0. by [].
- move=> u _ Su. apply/eqP => Z. have := congr1 (fun p : {poly rat} => p`_(size u).-2) Z. rewrite coef_deriv coef0 => /eqP. have -> : (size u).-2.+1 = (size u).-1 by case: (size u) Su => [|[|k]].
  rewrite mulrn_eq0 -lead_coefE lead_coef_eq0 -size_poly_eq0. by case: (size u) Su => [|[|k]].
Qed.

(** polynomials with the same values at the integers *)
Lemma zvals_eq (P Q : {poly int}) : (forall x : Z, P.[int_of_Z x] = Q.[int_of_Z x]) -> P = Q.
Proof.
move=> H. apply/eqP. rewrite -subr_eq0. apply/eqP. apply: (@roots_geq_poly_eq0 _ _ [seq (Posz i) | i <- iota 0 (size (P - Q)%R)]).
- apply/allP => z /mapP [i _ ->]. rewrite /root hornerD hornerN. have := H (Z_of_int i). rewrite Z_of_intK => ->. by rewrite subrr.
- rewrite map_inj_uniq ?iota_uniq //. by move=> a b [].
- by rewrite size_map size_iota.
Qed.
Lemma itr_size (R : rcfType) (p : uz) : unorm p -> p <> [::] -> size (itr p) = (dg p).+1.
Proof. move=> N Ne. rewrite -(tr_size R N Ne) itr_tr size_map_inj_poly //. exact: intr_inj. Qed.
