(** * Descartes' rule of signs for the real root isolation (mathcomp, over any real closed field). *)
From mathcomp Require Import all_ssreflect all_algebra polyrcf.
From Coq Require Import Field.
Import Order.TTheory GRing.Theory Num.Theory.
Set Implicit Arguments.
Unset Strict Implicit.
Local Open Scope ring_scope.

(** ** Coq's field tactic on mathcomp fields *)
Section FieldTac.
Variable F : fieldType.
Definition tadd (a b : F) : F := a + b.
Definition tmul (a b : F) : F := a * b.
Definition tsub (a b : F) : F := a - b.
Definition topp (a : F) : F := - a.
Definition tdiv (a b : F) : F := a / b.
Definition tinv (a : F) : F := a^-1.
Definition tzero : F := 0.
Definition tone : F := 1.
Lemma tfield : field_theory tzero tone tadd tmul tsub topp tdiv tinv eq.
Proof.
split=> //.
- split=> *; rewrite /tadd /tmul /tsub /topp /tzero /tone ?add0r ?mul1r ?mulrDl ?subrr //; [exact: addrC|exact: addrA|exact: mulrC|exact: mulrA].
- by apply/eqP; rewrite oner_eq0.
- by move=> p /eqP H; rewrite /tmul /tinv mulVf.
Qed.
End FieldTac.
Lemma tfold_sub (F : fieldType) (a b : F) : a - b = tsub a b. Proof. by []. Qed.
Ltac tfold F :=
  repeat match goal with
  | |- context [@GRing.add ?T ?a ?b] => change (@GRing.add T a b) with (@tadd F a b)
  | |- context [@GRing.mul ?T ?a ?b] => change (@GRing.mul T a b) with (@tmul F a b)
  | |- context [@GRing.opp ?T ?a] => change (@GRing.opp T a) with (@topp F a)
  | |- context [@GRing.inv ?T ?a] => change (@GRing.inv T a) with (@tinv F a)
  | |- context [@GRing.zero ?T] => change (@GRing.zero T) with (tzero F)
  | |- context [@GRing.one ?T] => change (@GRing.one T) with (tone F)
  end; match goal with |- @eq _ ?a ?b => change (@eq (GRing.Field.sort F) a b) end.

Section Desc.
Variable R : rcfType.
Add Field Rfield : (tfield R).
Implicit Types p q : {poly R}.

Lemma poly_eq_pos p q : (forall x : R, 0 < x -> p.[x] = q.[x]) -> p = q.
Proof.
move=> H. apply/eqP. rewrite -subr_eq0. apply/negPn/negP => N0.
pose rs := [seq (i.+1%:R : R) | i <- iota 0 (size (p - q))].
have : (size rs < size (p - q)%R)%N.
  apply: max_poly_roots => //.
  - apply/allP => x /mapP [i _ ->]. by rewrite rootE hornerD hornerN H ?subrr ?ltr0Sn.
  - rewrite map_inj_uniq ?iota_uniq // => i j /eqP. by rewrite eqr_nat => /eqP [].
by rewrite size_map size_iota ltnn.
Qed.

(** *** Signs of coefficients *)
Definition nonneg p := forall i, 0 <= p`_i.
Definition same p := nonneg p \/ nonneg (- p).
Definition onep p := exists t, (forall i, (t <= i)%N -> 0 <= p`_i) /\ (forall i, (i < t)%N -> p`_i <= 0).
Definition one p := onep p \/ onep (- p).

Lemma same_opp p : same (- p) <-> same p.
Proof. rewrite /same opprK. tauto. Qed.
Lemma one_opp p : one (- p) <-> one p.
Proof. rewrite /one opprK. tauto. Qed.

Lemma shift_coef p (b w : R) k : (p \Po (b%:P + w *: 'X))`_k = p^`N(k).[b] * w ^+ k.
Proof.
rewrite /comp_poly (@nderiv_taylor_wide _ (maxn (size p) k.+1)) ?size_map_polyC ?leq_maxl //; last exact: mulrC.
rewrite coef_sum (bigD1 (Ordinal (leq_maxr (size p) k.+1))) //= big1 ?addr0.
- by rewrite nderivn_map horner_map /= exprZn -mul_polyC mulrA -polyCM mul_polyC coefZ coefXn eqxx mulr1 mulrC.
- move=> i /negbTE Hi. rewrite nderivn_map horner_map /= exprZn -!mul_polyC mulrA -polyCM mul_polyC coefZ coefXn.
  case: eqP => E; last by rewrite mulr0. by move: Hi; rewrite -val_eqE /= -E eqxx.
Qed.

Lemma nonneg_nderiv p k (b : R) : 0 <= b -> (forall i, (k <= i)%N -> 0 <= p`_i) -> 0 <= p^`N(k).[b].
Proof.
move=> Hb H. rewrite horner_coef. apply: sumr_ge0 => i _. rewrite mulr_ge0 ?exprn_ge0 // coef_nderivn mulrn_wge0 // H //. exact: leq_addr.
Qed.

Lemma threshold q : (forall k, 0 <= q`_k -> 0 <= q`_k.+1) -> onep q.
Proof.
move=> H. have E : exists k, 0 <= q`_k by exists (size q); rewrite nth_default.
exists (ex_minn E). case: ex_minnP => t Ht Hm. split.
- move=> i /subnKC <-. elim: (i - t)%N => [|j IH]; by rewrite ?addn0 // addnS H.
- move=> i Hi. rewrite leNgt. apply/negP => /ltW /Hm. by rewrite leqNgt Hi.
Qed.

Lemma onep_shift1 p : onep p -> onep (p \Po (1%:P + 'X)).
Proof.
move=> [t [Hge Hlt]]. apply: threshold => k Hk. set q := p \Po _ in Hk *.
case: (leqP t k) => L.
- rewrite /q -['X]scale1r shift_coef mulr_ge0 ?exprn_ge0 ?ler01 //. apply: nonneg_nderiv; first exact: ler01. move=> i Hi. apply: Hge. by rewrite (leq_trans L) // ltnW.
- have E : (1%:P + 'X) * q^`() - t%:R *: q = ('X * p^`() - t%:R *: p) \Po (1%:P + 'X).
    rewrite /q deriv_comp derivD derivC derivX add0r mulr1 rmorphB rmorphM /= comp_polyX comp_polyZ. by [].
  have N : 0 <= ((1%:P + 'X) * q^`() - t%:R *: q)`_k.
    rewrite E -[X in _ \Po (_ + X)]scale1r shift_coef mulr_ge0 ?exprn_ge0 ?ler01 //. apply: nonneg_nderiv; first exact: ler01. move=> i _.
    rewrite coefB coefXM coefZ. case: i => [|i] /=.
      rewrite sub0r -mulrN. case: t L {Hge E} Hlt => // t L Hlt. by rewrite mulr_ge0 ?ler0n // oppr_ge0 Hlt.
    rewrite coef_deriv -mulr_natl -mulrBl. case: (leqP t i.+1) => Li.
      by rewrite mulr_ge0 ?Hge // subr_ge0 ler_nat.
    by rewrite mulr_le0 ?Hlt // subr_le0 ler_nat ltnW.
  move: N. rewrite coefB mulrDl mul1r coefD coefXM coefZ coef_deriv.
  have -> : (if k == 0%N then 0 else q^`()`_k.-1) = k%:R * q`_k.
    case: k {Hk L} => [|k] /=; first by rewrite mul0r. by rewrite coef_deriv mulr_natl.
  rewrite -addrA -mulrBl => N.
  have : 0 <= q`_k.+1 *+ k.+1.
    rewrite -[X in 0 <= X](addrK ((k%:R - t%:R) * q`_k)). rewrite addr_ge0 // oppr_ge0 mulr_le0_ge0 // subr_le0 ler_nat ltnW //.
  by rewrite pmulrn_lge0.
Qed.

Lemma scale_coef p (w : R) k : (p \Po (w *: 'X))`_k = p`_k * w ^+ k.
Proof. have := shift_coef p 0 w k. rewrite polyC0 add0r => ->. by rewrite horner_coef0 coef_nderivn addn0 binn. Qed.

Lemma onep_scale p (w : R) : 0 < w -> onep p -> onep (p \Po (w *: 'X)).
Proof.
move=> Hw [t [A B]]. exists t. split=> i Hi; rewrite scale_coef.
- by rewrite mulr_ge0 ?A // exprn_ge0 // ltW.
- by rewrite mulr_le0_ge0 ?B // exprn_ge0 // ltW.
Qed.
Lemma onep_12 p : onep p -> onep (p \Po (1%:P + 2%:R *: 'X)).
Proof.
move=> H. have -> : p \Po (1%:P + 2%:R *: 'X) = (p \Po (1%:P + 'X)) \Po (2%:R *: 'X).
  by rewrite -comp_polyA comp_polyD comp_polyC comp_polyX.
apply: onep_scale; rewrite ?ltr0n //. exact: onep_shift1.
Qed.
Lemma one_12 p : one p -> one (p \Po (1%:P + 2%:R *: 'X)).
Proof. case=> H; [left|right]; last (rewrite -rmorphN /=); exact: onep_12. Qed.

(** *** Reversal *)
Definition revp n p := \poly_(i < n.+1) p`_(n - i).
Lemma revp_coef n p i : (revp n p)`_i = if (i <= n)%N then p`_(n - i) else 0.
Proof. by rewrite coef_poly ltnS. Qed.
Lemma revp_opp n p : revp n (- p) = - revp n p.
Proof. apply/polyP => i. rewrite coefN !revp_coef coefN. by case: ifP => _; rewrite ?oppr0. Qed.
Lemma revpK n p : (size p <= n.+1)%N -> revp n (revp n p) = p.
Proof.
move=> S. apply/polyP => i. rewrite !revp_coef. case: leqP => L; last by rewrite nth_default // (leq_trans S).
by rewrite leq_subr subKn.
Qed.
Lemma onep_rev n p : onep p -> one (revp n p).
Proof.
move=> [t [A B]]. right. exists (n.+1 - t)%N. split=> i Hi; rewrite coefN revp_coef.
- case: (leqP i n) => L; last by rewrite oppr0. case: (ltnP (n - i) t) => L2; first by rewrite oppr_ge0 B.
  exfalso. move: Hi. rewrite leq_subLR. move: L2. rewrite -(leq_add2r i) subnK // => L2 L3. by have := leq_trans L3 L2; rewrite ltnn.
- have L : (i <= n)%N by rewrite -ltnS; apply: (leq_trans Hi); apply: leq_subr.
  rewrite L oppr_le0 A //. move: Hi. rewrite ltn_subRL ltnS => Hi. by rewrite leq_subRL // addnC.
Qed.
Lemma one_rev n p : one p -> one (revp n p).
Proof. case=> H; first exact: onep_rev. apply/one_opp. rewrite -revp_opp. exact: onep_rev. Qed.
Lemma revp_horner n p (x : R) : (size p <= n.+1)%N -> x != 0 -> (revp n p).[x] = x ^+ n * p.[x^-1].
Proof.
move=> S x0. rewrite (horner_coef_wide _ (size_poly _ _)) (horner_coef_wide _ S) mulr_sumr (reindex_inj rev_ord_inj) /=.
apply: eq_bigr => i _. rewrite revp_coef subSS leq_subr subKn ?leq_ord //.
rewrite exprVn mulrCA; congr (_ * _). have Li := leq_ord i. move: (nat_of_ord i) Li => j Lj. by rewrite -{2}(subnK Lj) exprD mulfK // expf_neq0.
Qed.

(** *** No sign change, one sign change *)
Lemma same_noroot p (x : R) : same p -> p != 0 -> 0 < x -> p.[x] != 0.
Proof.
move=> H p0 Hx. wlog N : p H p0 / nonneg p => [W|].
  case: (H) => N; first exact: W. have X := W (- p) (proj2 (same_opp p) H). rewrite hornerN !oppr_eq0 in X. exact: X.
rewrite gt_eqF // horner_coef -(prednK (_ : 0 < size p)%N) ?lt0n ?size_poly_eq0 // big_ord_recr /=.
apply: ltr_paddl; first by apply: sumr_ge0 => i _; rewrite mulr_ge0 // exprn_ge0 // ltW.
rewrite mulr_gt0 ?exprn_gt0 // lt0r N -lead_coefE lead_coef_eq0 p0 //.
Qed.

Lemma one_unique p (x y : R) : one p -> p != 0 -> 0 < x -> 0 < y -> p.[x] = 0 -> p.[y] = 0 -> x = y.
Proof.
move=> H p0 Hx Hy Px Py. wlog L : x y Hx Hy Px Py / x < y => [W|].
  case: (ltgtP x y) => // L; first exact: W. apply/esym. exact: W.
exfalso. wlog [t [A B]] : p p0 H Px Py / onep p => [W|].
  case: (H) => N; first exact: (W p). apply: (W (- p)) => //; rewrite ?oppr_eq0 ?hornerN ?Px ?Py ?oppr0 //. exact/one_opp.
pose rho := y / x. have r1 : 1 < rho by rewrite /rho ltr_pdivl_mulr // mul1r.
have r0 : 0 < rho by apply: lt_trans r1.
have Ey : y = x * rho by rewrite /rho mulrCA mulfV ?mulr1 // gt_eqF.
clearbody rho.
have S0 : \sum_(i < size p) (p`_i * x ^+ i) * (rho ^+ i - rho ^+ t) = 0.
  under eq_bigr do rewrite mulrBr. rewrite sumrB -mulr_suml -horner_coef Px mul0r subr0.
  rewrite -[RHS]Py horner_coef. apply: eq_bigr => i _. by rewrite [in RHS]Ey exprMn mulrA.
have T0 : forall i : 'I_(size p), 0 <= (p`_i * x ^+ i) * (rho ^+ i - rho ^+ t).
  move=> i. case: (leqP t i) => Li.
    rewrite mulr_ge0 //; first by rewrite mulr_ge0 ?A ?exprn_ge0 // ltW.
    by rewrite subr_ge0 ler_eexpn2l.
  rewrite mulr_le0 //; first by rewrite mulr_le0_ge0 ?B ?exprn_ge0 // ltW.
  by rewrite subr_le0 ler_eexpn2l // ltnW.
have Z : forall i, i != t -> p`_i = 0.
  move=> i Hi. case: (ltnP i (size p)) => Ls; last by rewrite nth_default.
  have /psumr_eq0P X := S0. have {X} := X (fun i _ => T0 i) (Ordinal Ls) isT. move/eqP. rewrite !mulf_eq0 /= expf_eq0 (gt_eqF Hx) andbF orbF.
  rewrite subr_eq0 => /orP [/eqP //|]. move/eqP/(ieexprIn r0 (negbT (gt_eqF r1))) => E. by rewrite E eqxx in Hi.
have Pt : p = p`_t *: 'X^t.
  apply/polyP => i. rewrite coefZ coefXn. case: eqP => [->|/eqP Hi]; by rewrite ?mulr1 // mulr0 Z.
move: Px. rewrite Pt hornerZ hornerXn => /eqP. rewrite mulf_eq0 expf_eq0 (gt_eqF Hx) andbF orbF => /eqP E.
by move: p0; rewrite Pt E scale0r eqxx.
Qed.

Lemma big_sign p : p != 0 -> exists2 x : R, 1 < x & forall y, x <= y -> Num.sg p.[y] = Num.sg (lead_coef p).
Proof.
move=> p0. exists (cauchy_bound p + 1); first by rewrite ltr_addr cauchy_bound_gt0.
move=> y Hy. rewrite (sgp_pinftyP (ge_cauchy_bound p0)) // in_itv /= andbT. apply: le_trans Hy. by rewrite ler_addl ler01.
Qed.

Lemma one_exists p : one p -> ~ same p -> exists2 x : R, 0 < x & p.[x] = 0.
Proof.
move=> H NS. wlog [t [A B]] : p H NS / onep p => [W|].
  case: (H) => N; first exact: W. have [||//|x Hx] := W (- p); [exact/one_opp|move/same_opp; exact: NS|].
  rewrite hornerN => /eqP. rewrite oppr_eq0 => /eqP E. by exists x.
have p0 : p != 0 by apply/eqP => E; apply: NS; left => i; rewrite E coef0.
(* some coefficient is negative: the lowest one; some is positive: the leading one *)
have Lp : 0 < lead_coef p.
  rewrite lt0r lead_coef_eq0 p0 lead_coefE /=. case: (leqP t (size p).-1) => L; first exact: A.
  exfalso. apply: NS. right => i. rewrite coefN oppr_ge0. case: (ltnP i (size p)) => Li; last by rewrite nth_default.
  apply: B. apply: leq_ltn_trans L. by rewrite -ltnS prednK // (leq_trans _ Li).
have [i Hi] : exists i, p`_i < 0.
  have : ~~ all (fun c : R => 0 <= c) p.
    apply/negP => /allP X. apply: NS. left => i. case: (ltnP i (size p)) => Li; last by rewrite nth_default. exact/X/mem_nth.
  by move/allPn => [c /(nthP 0) [i _ <-]]; rewrite -ltNge; exists i.
pose r := revp (size p).-1 p.
have Sp : (0 < size p)%N by rewrite lt0n size_poly_eq0.
have Li : (i < size p)%N by case: (ltnP i (size p)) => // L; move: Hi; rewrite nth_default // ltxx.
have r0 : r != 0.
  apply/eqP => E. have := revp_coef (size p).-1 p ((size p).-1 - i). rewrite -/r E coef0 leq_subr subKn; last by rewrite -ltnS prednK.
  by move/eqP; rewrite eq_sym lt_eqF.
have Lr : lead_coef r < 0.
  rewrite lead_coefE. set k := (size r).-1. have : r`_k != 0 by rewrite -lead_coefE lead_coef_eq0.
  rewrite /r revp_coef. case: leqP => L; last by rewrite eqxx. move=> X. rewrite lt_neqAle X /=. 
  (* the lowest non-zero coefficient: if it were non-negative so would all be *)
  rewrite leNgt. apply/negP => P. have It : (i < t)%N by case: (ltnP i t) => // T; move: (A _ T); rewrite leNgt Hi.
  have Kt : (t <= (size p).-1 - k)%N by case: (leqP t ((size p).-1 - k)) => // T; move: (B _ T); rewrite leNgt P.
  have : r`_((size p).-1 - i) != 0 by rewrite /r revp_coef leq_subr subKn ?lt_eqF // -ltnS prednK.
  case/eqP. rewrite nth_default //. rewrite -(prednK (_ : 0 < size r)%N) ?lt0n ?size_poly_eq0 // -/k.
  have := leq_ltn_trans Kt _ => _. 
  have J : (i < (size p).-1 - k)%N := leq_trans It Kt. by rewrite ltn_subRL addnC -ltn_subRL in J.
have [x X1 HX] := big_sign p0. have [y Y1 HY] := big_sign r0.
have x0 : 0 < x := lt_trans ltr01 X1. have y0 : 0 < y := lt_trans ltr01 Y1.
have Px : 0 < p.[x] by rewrite -sgr_gt0 HX // sgr_gt0.
have Py : p.[y^-1] < 0.
  have := HY _ (lexx y). rewrite /r revp_horner ?(gt_eqF y0) // ?prednK // => E. 
  have : y ^+ (size p).-1 * p.[y^-1] < 0 by rewrite -sgr_lt0 E sgr_lt0.
  by rewrite pmulr_rlt0 // exprn_gt0.
have Lxy : y^-1 <= x by apply: (@le_trans _ _ 1); rewrite ?ltW // invf_lt1.
have Z0 : 0 \in `[p.[y^-1], p.[x]] by rewrite in_itv /= !ltW.
have [z Hz /rootP Rz] := poly_ivt Lxy Z0.
exists z => //. apply: lt_le_trans (_ : y^-1 <= z); first by rewrite invr_gt0. by case/andP: Hz.
Qed.

(** *** The interval (0,1) seen from (0,+oo) *)
Definition moeb n p := revp n p \Po (1%:P + 'X).
Lemma size_1X : size (1%:P + 'X : {poly R}) = 2%N.
Proof. by rewrite addrC size_XaddC. Qed.
Lemma moeb_opp n p : moeb n (- p) = - moeb n p.
Proof. by rewrite /moeb revp_opp rmorphN. Qed.
Lemma moeb_horner n p (y : R) : (size p <= n.+1)%N -> 1 + y != 0 -> (moeb n p).[y] = (1 + y) ^+ n * p.[(1 + y)^-1].
Proof. move=> S H. by rewrite /moeb horner_comp hornerD hornerC hornerX revp_horner. Qed.
Lemma size_moeb n p : (size (moeb n p) <= n.+1)%N.
Proof. by rewrite size_comp_poly2 ?size_1X // size_poly. Qed.
Lemma moeb_neq0 n p : (size p <= n.+1)%N -> p != 0 -> moeb n p != 0.
Proof.
move=> S p0. rewrite /moeb comp_poly2_eq0 ?size_1X //. apply/eqP => E. move: p0. by rewrite -(revpK S) E /revp poly_def big1 ?eqxx // => i _; rewrite coef0 scale0r.
Qed.

Lemma unit_inv (x : R) : 0 < x -> x < 1 -> 0 < x^-1 - 1.
Proof. move=> H0 H1. by rewrite subr_gt0 invf_gt1. Qed.
Lemma unit_inv' (y : R) : 0 < y -> 0 < (1 + y)^-1 /\ (1 + y)^-1 < 1.
Proof. move=> H. have P : 0 < 1 + y by rewrite addr_gt0 ?ltr01. by rewrite invr_gt0 P invf_lt1 // ltr_addl H. Qed.

Lemma moeb_root n p (x : R) : (size p <= n.+1)%N -> 0 < x -> x < 1 -> (p.[x] == 0) = ((moeb n p).[x^-1 - 1] == 0).
Proof.
move=> S H0 H1. rewrite moeb_horner //; last by rewrite addrC subrK invr_eq0 gt_eqF.
by rewrite addrC subrK invrK mulf_eq0 expf_eq0 invr_eq0 (gt_eqF H0) andbF.
Qed.
Lemma no_root n p (x : R) : (size p <= n.+1)%N -> p != 0 -> same (moeb n p) -> 0 < x -> x < 1 -> p.[x] != 0.
Proof.
move=> S p0 H H0 H1. rewrite (moeb_root S H0 H1). apply: same_noroot => //; first exact: moeb_neq0. exact: unit_inv.
Qed.
Lemma root_unique n p (x y : R) : (size p <= n.+1)%N -> p != 0 -> one (moeb n p) -> 0 < x -> x < 1 -> 0 < y -> y < 1 ->
  p.[x] = 0 -> p.[y] = 0 -> x = y.
Proof.
move=> S p0 H x0 x1 y0 y1 /eqP. rewrite (moeb_root S x0 x1) => /eqP Px /eqP. rewrite (moeb_root S y0 y1) => /eqP Py.
have E := one_unique H (moeb_neq0 S p0) (unit_inv x0 x1) (unit_inv y0 y1) Px Py.
by move: E => /addIr /invr_inj.
Qed.
Lemma root_exists n p : (size p <= n.+1)%N -> one (moeb n p) -> ~ same (moeb n p) -> exists x : R, [/\ 0 < x, x < 1 & p.[x] = 0].
Proof.
move=> S H NS. have [y Hy Py] := one_exists H NS. have [A B] := unit_inv' Hy. exists (1 + y)^-1. split=> //.
apply/eqP. rewrite (moeb_root S A B) invrK addrAC subrr add0r Py eqxx. by [].
Qed.

(** *** Halving the interval *)
Definition lh n p := (2%:R ^+ n) *: (p \Po (2%:R^-1 *: 'X)).
Definition rh n p := (2%:R ^+ n) *: (p \Po (2%:R^-1 *: (1%:P + 'X))).
Lemma n2 : (2%:R : R) != 0. Proof. by rewrite pnatr_eq0. Qed.
Lemma n2' : (2%:R^-1 : R) != 0. Proof. by rewrite invr_eq0 n2. Qed.
Lemma size_lh n p : (size p <= n.+1)%N -> (size (lh n p) <= n.+1)%N.
Proof. move=> S. rewrite size_scale ?expf_neq0 ?n2 // size_comp_poly2 // size_scale ?n2' ?size_polyX //. Qed.
Lemma size_rh n p : (size p <= n.+1)%N -> (size (rh n p) <= n.+1)%N.
Proof. move=> S. rewrite size_scale ?expf_neq0 ?n2 // size_comp_poly2 // size_scale ?n2' ?size_1X //. Qed.
Lemma lh_horner n p x : (lh n p).[x] = 2%:R ^+ n * p.[2%:R^-1 * x].
Proof. by rewrite /lh hornerZ horner_comp hornerZ hornerX. Qed.
Lemma rh_horner n p x : (rh n p).[x] = 2%:R ^+ n * p.[2%:R^-1 * (1 + x)].
Proof. by rewrite /rh hornerZ horner_comp hornerZ hornerD hornerC hornerX. Qed.
Lemma comp12_horner p x : (p \Po (1%:P + 2%:R *: 'X)).[x] = p.[1 + 2%:R * x].
Proof. by rewrite horner_comp hornerD hornerC hornerZ hornerX. Qed.
Lemma moeb_lh n p : (size p <= n.+1)%N -> moeb n (lh n p) = moeb n p \Po (1%:P + 2%:R *: 'X).
Proof.
move=> S. apply: poly_eq_pos => y Hy. have P : 0 < 1 + y by rewrite addr_gt0 ?ltr01.
have E : 1 + (1 + 2%:R * y) = 2%:R * (1 + y) by rewrite mulrDr mulr1 addrA.
rewrite moeb_horner ?size_lh // ?(gt_eqF P) // comp12_horner moeb_horner //; last first.
  by rewrite E mulf_neq0 ?n2 // gt_eqF.
rewrite E lh_horner exprMn invfM. by rewrite mulrCA mulrA.
Qed.
Lemma moeb_rh n p : (size p <= n.+1)%N -> revp n (moeb n (rh n p)) = revp n (moeb n p) \Po (1%:P + 2%:R *: 'X).
Proof.
move=> S. apply: poly_eq_pos => y Hy. have P : 0 < 1 + y by rewrite addr_gt0 ?ltr01.
have y0 : y != 0 by rewrite gt_eqF.
pose z := 1 + 2%:R * y. have z0 : 0 < z by rewrite addr_gt0 ?ltr01 // mulr_gt0 // ltr0n.
have y1 : 0 < 1 + y^-1 by rewrite addr_gt0 ?ltr01 // invr_gt0.
have z1 : 0 < 1 + z^-1 by rewrite addr_gt0 ?ltr01 // invr_gt0.
rewrite revp_horner ?size_moeb // moeb_horner ?size_rh ?(gt_eqF y1) // comp12_horner -/z.
have Ez : z = 1 + 2%:R * y by []. clearbody z.
rewrite revp_horner ?size_moeb ?(gt_eqF z0) // moeb_horner ?(gt_eqF z1) // rh_horner.
have Y : y * (1 + y^-1) = 1 + y by rewrite mulrDr mulr1 mulfV // addrC.
have Z : z * (1 + z^-1) = 2%:R * (1 + y) by rewrite [LHS]mulrDr mulr1 mulfV ?(gt_eqF z0) // Ez mulrDr mulr1 addrAC.
rewrite [LHS]mulrA [RHS]mulrA -[in RHS]exprMn Z -[in LHS]exprMn Y exprMn mulrA [_ ^+ n * 2%:R ^+ n]mulrC. congr (_ * _). congr (p.[_]).
have -> : (1 + y^-1)^-1 = y / (1 + y) by rewrite -Y invfM mulrA mulfV // mul1r.
have -> : (1 + z^-1)^-1 = z / (2%:R * (1 + y)) by rewrite -Z invfM mulrA mulfV ?(gt_eqF z0) // mul1r.
rewrite invfM mulrCA; congr (_ * _). have -> : 1 + y / (1 + y) = (1 + y + y) / (1 + y) by rewrite [RHS]mulrDl mulfV ?(gt_eqF P).
rewrite Ez. congr (_ / _).
by rewrite -addrA -mulr2n -mulr_natl.
Qed.
Lemma one_lh n p : (size p <= n.+1)%N -> one (moeb n p) -> one (moeb n (lh n p)).
Proof. move=> S H. rewrite moeb_lh //. exact: one_12. Qed.
Lemma one_rh n p : (size p <= n.+1)%N -> one (moeb n p) -> one (moeb n (rh n p)).
Proof.
move=> S H. rewrite -(@revpK n (moeb n (rh n p))) ?size_moeb // moeb_rh //. apply: one_rev. apply: one_12. exact: one_rev.
Qed.

(** *** The polynomial seen from the interval (b, b+w) *)
Definition aff (s b w : R) F := s *: (F \Po (b%:P + w *: 'X)).
Lemma aff_horner s b w F x : (aff s b w F).[x] = s * F.[b + w * x].
Proof. by rewrite /aff hornerZ horner_comp hornerD hornerC hornerZ hornerX. Qed.
Lemma aff_coef s b w F k : (aff s b w F)`_k = s * (F^`N(k).[b] * w ^+ k).
Proof. by rewrite /aff coefZ shift_coef. Qed.
Lemma size_affine (b w : R) : w != 0 -> size (b%:P + w *: 'X) = 2%N.
Proof. move=> H. by rewrite addrC -mul_polyC size_MXaddC polyC_eq0 (negbTE H) /= size_polyC H. Qed.
Lemma size_aff s b w F : s != 0 -> w != 0 -> size (aff s b w F) = size F.
Proof. move=> Hs Hw. by rewrite /aff size_scale // size_comp_poly2 // size_affine. Qed.
Lemma aff_neq0 s b w F : s != 0 -> w != 0 -> F != 0 -> aff s b w F != 0.
Proof. move=> Hs Hw. by rewrite -!size_poly_eq0 size_aff. Qed.
Lemma lh_aff n s b w F : lh n (aff s b w F) = aff (2%:R ^+ n * s) b (w / 2%:R) F.
Proof.
apply: poly_eq_pos => x _. rewrite lh_horner !aff_horner mulrA. by rewrite mulrA.
Qed.
Lemma rh_aff n s b w F : rh n (aff s b w F) = aff (2%:R ^+ n * s) (b + w / 2%:R) (w / 2%:R) F.
Proof.
apply: poly_eq_pos => x _. rewrite rh_horner !aff_horner mulrA. congr (_ * _).
by rewrite -addrA mulrA mulrDr mulr1.
Qed.

(** *** Small intervals *)
Lemma pow1X_coef j k : ((1%:P + 'X : {poly R}) ^+ j)`_k = 'C(j, k)%:R.
Proof.
have -> : (1%:P + 'X : {poly R}) ^+ j = 'X^j \Po (1%:P + 1 *: 'X) by rewrite scale1r rmorphX /= comp_polyX.
rewrite shift_coef expr1n mulr1 nderivnXn hornerMn hornerXn expr1n. by [].
Qed.
Lemma moeb_sum n p : moeb n p = \sum_(i < n.+1) p`_i *: (1%:P + 'X) ^+ (n - i).
Proof.
rewrite /moeb /revp poly_def rmorph_sum /= (reindex_inj rev_ord_inj) /=. apply: eq_bigr => i _.
by rewrite comp_polyZ rmorphX /= comp_polyX subSS subKn // -ltnS.
Qed.
Lemma same_small n p : \sum_(i < n) `|p`_i.+1| <= `|p`_0| -> same (moeb n p).
Proof.
move=> H. wlog P : p H / 0 <= p`_0 => [W|].
  case: (ger0P p`_0) => P0; first exact: W. apply/same_opp. rewrite -moeb_opp. apply: W; last by rewrite coefN oppr_ge0 ltW.
  rewrite coefN normrN. apply: le_trans H. apply: ler_sum => i _. by rewrite coefN normrN.
left => k. rewrite moeb_sum coef_sum big_ord_recl /= subn0 coefZ pow1X_coef.
rewrite ger0_norm // in H.
apply: (@le_trans _ _ ((p`_0 - \sum_(i < n) `|p`_i.+1|) * 'C(n, k)%:R)); first by rewrite mulr_ge0 ?ler0n // subr_ge0.
rewrite mulrBl ler_add2l ler_oppl -sumrN mulr_suml. apply: ler_sum => i _. rewrite coefZ pow1X_coef /bump /= add1n.
apply: (@le_trans _ _ (`|p`_i.+1| * 'C(n - i.+1, k)%:R)).
  rewrite -mulNr. apply: ler_wpmul2r; first exact: ler0n. by rewrite -normrN ler_norm.
apply: ler_wpmul2l; first exact: normr_ge0. rewrite ler_nat. apply: leq_bin2l. exact: leq_subr.
Qed.
Lemma moeb_euler n p : (size p <= n.+2)%N -> n.+1%:R *: moeb n.+1 p = (1%:P + 'X) * (moeb n.+1 p)^`() + moeb n p^`().
Proof.
move=> S. have E : n.+1%:R *: revp n.+1 p = 'X * (revp n.+1 p)^`() + revp n p^`().
  apply/polyP => i. rewrite coefZ coefD coefXM coef_deriv.
  have -> : (if i == 0%N then 0 else (revp n.+1 p)`_i.-1.+1 *+ i.-1.+1) = i%:R * (revp n.+1 p)`_i.
    case: i => [|i] /=; first by rewrite mul0r. by rewrite mulr_natl.
  rewrite !revp_coef. case: (leqP i n) => L.
    rewrite (leq_trans L (leqnSn n)) coef_deriv subSn // -[X in _ = _ + X]mulr_natl -mulrDl -natrD addnS subnKC //.
  rewrite addr0. case: (leqP i n.+1) => L2; last by rewrite !mulr0.
  have -> // : i = n.+1 by apply/eqP; rewrite eqn_leq L L2.
rewrite /moeb deriv_comp derivD derivC derivX add0r mulr1 -comp_polyZ E rmorphD rmorphM /= comp_polyX. by [].
Qed.
Lemma one_small n p : (size p <= n.+2)%N -> \sum_(i < n) `|p`_i.+2| *+ i.+2 <= `|p`_1| -> one (moeb n.+1 p).
Proof.
move=> S H. have : same (moeb n p^`()).
  apply: same_small. rewrite coef_deriv. apply: le_trans H. apply: ler_sum => i _. by rewrite coef_deriv normrMn.
wlog : p S {H} / nonneg (moeb n p^`()) => [W [N|N]|N _].
- apply: W => //. by left.
- apply/one_opp. rewrite -moeb_opp. apply: W; rewrite ?size_opp // derivN moeb_opp //. by left.
right. apply: threshold => k. rewrite !coefN !oppr_ge0 => Hk.
case: (leqP k n.+1) => L; last by rewrite nth_default // (leq_trans (size_moeb _ _)) // ltnW.
have := congr1 (fun q : {poly R} => q`_k) (moeb_euler S). rewrite coefZ coefD mulrDl mul1r coefD coefXM coef_deriv.
have -> : (if k == 0%N then 0 else (moeb n.+1 p)^`()`_k.-1) = k%:R * (moeb n.+1 p)`_k.
  case: k {Hk L} => [|k] /=; first by rewrite mul0r. by rewrite coef_deriv mulr_natl.
move/eqP. rewrite -addrA -subr_eq => /eqP X.
rewrite -(@pmulrn_lle0 _ _ k.+1) // -X subr_le0.
apply: (@le_trans _ _ (k%:R * (moeb n.+1 p)`_k)); last by rewrite ler_addl.
by apply: ler_wnmul2r => //; rewrite ler_nat.
Qed.

Lemma bounded_poly (F : {poly R}) (M : R) : exists2 C, 0 < C & forall b, `|b| <= M -> `|F.[b]| <= C.
Proof.
exists (1 + \sum_(i < size F) `|F`_i| * `|M| ^+ i).
  rewrite ltr_paddr ?ltr01 //. by apply: sumr_ge0 => i _; rewrite mulr_ge0 ?exprn_ge0.
move=> b Hb. rewrite horner_coef. apply: (le_trans (ler_norm_sum _ _ _)). apply: ler_paddl; first exact: ler01.
apply: ler_sum => i _. rewrite normrM normrX ler_wpmul2l // ler_expn2r ?nnegrE //. apply: le_trans Hb _. exact: ler_norm.
Qed.
Lemma bounded_taylor n (F : {poly R}) (M : R) : exists2 C, 0 < C & forall k b, (k <= n)%N -> `|b| <= M -> `|F^`N(k).[b]| <= C.
Proof.
elim: n => [|n [C C0 IH]].
  have [C C0 H] := bounded_poly F^`N(0) M. exists C => // k b. rewrite leqn0 => /eqP ->. exact: H.
have [D D0 H] := bounded_poly F^`N(n.+1) M. exists (C + D); first by rewrite addr_gt0 ?ltr01.
move=> k b. rewrite leq_eqVlt => /orP [/eqP ->|L] Hb.
- apply: (le_trans (H b Hb)). by rewrite ler_addr ltW.
- apply: (le_trans (IH k b L Hb)). by rewrite ler_addl ltW.
Qed.
Lemma small_width (D : R) : 0 < D -> exists2 e, 0 < e & forall w, 0 < w -> w <= e -> w <= 1 /\ w <= D.
Proof.
move=> H. exists (Num.min 1 D); first by rewrite lt_minr ltr01.
move=> w _. by rewrite le_minr => /andP.
Qed.
Lemma small_same n (F : {poly R}) (M d : R) : 0 < d -> exists2 e, 0 < e & forall s b w, 0 < s -> `|b| <= M -> 0 < w -> w <= e ->
  d <= `|F.[b]| -> same (moeb n (aff s b w F)).
Proof.
move=> d0. have [C C0 HC] := bounded_taylor n F M.
have [e e0 He] := small_width (divr_gt0 d0 (mulr_gt0 (ltr0Sn R n) C0)).
exists e => // s b w s0 Hb w0 we Hd. have [w1 wD] := He w w0 we. apply: same_small.
rewrite aff_coef expr0 mulr1 nderivn0 normrM (gtr0_norm s0).
apply: (@le_trans _ _ (s * d)); last by rewrite ler_pmul2l.
apply: (@le_trans _ _ (\sum_(i < n) s * (C * w))).
  apply: ler_sum => i _. rewrite aff_coef normrM (gtr0_norm s0) ler_pmul2l // normrM.
  apply: ler_pmul; rewrite ?normr_ge0 //; first exact: HC.
  rewrite normrX (gtr0_norm w0) exprS. apply: ler_pimulr; first exact: ltW. by apply: exprn_ile1 => //; exact: ltW.
rewrite sumr_const card_ord -mulrnAr ler_pmul2l // -mulr_natl mulrA.
apply: (@le_trans _ _ (n.+1%:R * C * w)).
  rewrite ler_pmul2r // ler_pmul2r // ler_nat. exact: leqnSn.
by rewrite mulrC -ler_pdivl_mulr // mulr_gt0 // ltr0Sn.
Qed.
Lemma small_one n (F : {poly R}) (M d : R) : (size F <= n.+2)%N -> 0 < d -> exists2 e, 0 < e & forall s b w, 0 < s -> `|b| <= M -> 0 < w -> w <= e ->
  d <= `|F^`().[b]| -> one (moeb n.+1 (aff s b w F)).
Proof.
move=> S d0. have [C C0 HC] := bounded_taylor n.+1 F M.
have N0 : 0 < n.+2%:R * n.+2%:R * C :> R by rewrite !mulr_gt0 ?ltr0Sn.
have [e e0 He] := small_width (divr_gt0 d0 N0).
exists e => // s b w s0 Hb w0 we Hd. have [w1 wD] := He w w0 we.
apply: one_small; first by rewrite size_aff ?gt_eqF.
rewrite aff_coef expr1 nderivn1 !normrM (gtr0_norm s0) (gtr0_norm w0).
apply: (@le_trans _ _ (s * (d * w))); last by rewrite ler_pmul2l // ler_pmul2r.
apply: (@le_trans _ _ (\sum_(i < n) s * ((C * w) * w *+ n.+2))).
  apply: ler_sum => i _. rewrite aff_coef normrM (gtr0_norm s0). rewrite -[X in X <= _]mulrnAr ler_pmul2l // normrM.
  have X : `|(F^`N(i.+2)).[b]| * `|w ^+ i.+2| <= C * w * w.
    rewrite -mulrA. apply: ler_pmul; rewrite ?normr_ge0 //; first by apply: HC => //; rewrite ltnS ltn_ord.
    rewrite normrX (gtr0_norm w0) !exprS mulrA. apply: ler_pimulr; first by apply: mulr_ge0; exact: ltW. by apply: exprn_ile1 => //; exact: ltW.
  apply: (@le_trans _ _ (C * w * w *+ i.+2)); first by rewrite ler_muln2r X orbT.
  apply: ler_wpmuln2l; first by rewrite !mulr_ge0 // ltW. by rewrite ltnS ltnS ltnW // ltn_ord.
rewrite sumr_const card_ord -mulrnAr ler_pmul2l // -mulrnAl -mulrnAl ler_pmul2r //.
rewrite -[C * w *+ n.+2 *+ n]mulrnA -mulr_natl mulrA.
apply: (@le_trans _ _ (n.+2%:R * n.+2%:R * C * w)).
  rewrite ler_pmul2r // ler_pmul2r // -natrM ler_nat leq_mul2l /=. by rewrite ltnW // ltnW.
by rewrite mulrC -ler_pdivl_mulr.
Qed.
Lemma coprime_bound (F G : {poly R}) (M : R) : coprimep F G -> exists2 d, 0 < d & forall b, `|b| <= M -> d <= `|F.[b]| \/ d <= `|G.[b]|.
Proof.
case/Bezout_eq1_coprimepP => -[u v] /= E. have [U U0 HU] := bounded_poly u M. have [V V0 HV] := bounded_poly v M.
have W0 : 0 < U + V by rewrite addr_gt0 ?ltr01.
exists (U + V)^-1; first by rewrite invr_gt0. move=> b Hb.
case: (lerP (U + V)^-1 `|F.[b]|) => HF; [by left|]. case: (lerP (U + V)^-1 `|G.[b]|) => HG; [by right|exfalso].
have := congr1 (fun p : {poly R} => `|p.[b]|) E. rewrite hornerD !hornerM hornerC normr1 => X.
have : `|u.[b] * F.[b] + v.[b] * G.[b]| < 1.
  apply: (le_lt_trans (ler_norm_add _ _)). rewrite !normrM -(mulfV (negbT (gt_eqF W0))) mulrDl.
  apply: ler_lt_add.
  - by apply: ler_pmul => //; [exact: HU|exact: ltW].
  - apply: (@le_lt_trans _ _ (V * `|G.[b]|)); first by apply: ler_wpmul2r => //; exact: HV. by rewrite ltr_pmul2l.
by rewrite X ltxx.
Qed.
End Desc.
