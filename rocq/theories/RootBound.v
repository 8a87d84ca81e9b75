(** * The value of a divisor of an integer polynomial at a large point (used for GCDHEU, UGcdHeu.v).

    If k divides F in Z[x], k is not a constant and all coefficients of F are at most B in absolute value, then
    |k(xi)| >= xi - 1 - B for xi >= B + 2: the complex roots of k are roots of F and so at most 1 + B in absolute
    value (Cauchy's bound).  The complex numbers are mathcomp's algC. *)
From Verif Require Import Prelude Coef Spec SpecProofs GcdPoly GcdProofs MonoStruct MonoStructProofs.
From mathcomp Require Import all_ssreflect all_algebra algC ssrZ.
Import Order.TTheory GRing.Theory Num.Theory.
Set Implicit Arguments.
Unset Strict Implicit.
Local Open Scope ring_scope.

Lemma geo_bound (B x : algC) n : 0 <= B -> 1 + B <= x -> \sum_(i < n) B * x ^+ i <= x ^+ n - 1.
Proof.
move=> B0 Hx. have x0 : 0 <= x by apply: le_trans Hx; rewrite addr_ge0 // ler01.
elim: n => [|n IH]; first by rewrite big_ord0 expr0 subrr.
rewrite big_ord_recr /=. apply: (le_trans (ler_add IH (lexx _))).
rewrite addrAC -{1}[x ^+ n]mul1r -mulrDl ler_sub // exprS. by apply: ler_wpmul2r => //; apply: exprn_ge0.
Qed.

Lemma cauchy (P : {poly algC}) (B z : algC) : 0 <= B -> 1 <= `|lead_coef P| -> (forall i, `|P`_i| <= B) ->
  root P z -> `|z| <= 1 + B.
Proof.
move=> B0 L1 HB /rootP Hz. 
have [//|/ltW H] := real_leP (normr_real z) (ger0_real (addr_ge0 ler01 B0)).
exfalso. have Pn0 : P != 0 by apply/eqP => P0; move: L1; rewrite P0 lead_coef0 normr0 ler10.
move: Hz; rewrite horner_coef -(prednK (_ : 0 < size P)%N) ?lt0n ?size_poly_eq0 // big_ord_recr /=.
set n := (size P).-1 => /eqP; rewrite addr_eq0 => /eqP E.
have := geo_bound n B0 H. apply/negP; rewrite -real_ltNge; first last.
- by apply: ger0_real; apply: sumr_ge0 => i _; rewrite mulr_ge0 // exprn_ge0.
- by rewrite rpredB ?rpred1 // rpredX // normr_real.
apply: (@lt_le_trans _ _ (`|z| ^+ n)); first by rewrite ltr_subl_addr ltr_addl ltr01.
have -> : `|z| ^+ n = `|z ^+ n| by rewrite normrX.
apply: (@le_trans _ _ (`|lead_coef P * z ^+ n|)); first by rewrite normrM -{1}[`|z ^+ n|]mul1r ler_wpmul2r.
rewrite -normrN -E. apply: (le_trans (ler_norm_sum _ _ _)). apply: ler_sum => i _.
by rewrite normrM normrX ler_wpmul2r // exprn_ge0.
Qed.

Lemma prod_bound (r : seq algC) (x d : algC) : 1 <= d -> (forall z, z \in r -> d <= `|x - z|) -> d ^+ (size r) <= \prod_(z <- r) `|x - z|.
Proof.
move=> d1. elim: r => [|z r IH] H; first by rewrite big_nil expr0.
rewrite big_cons exprS. apply: ler_pmul.
- exact: le_trans ler01 d1.
- by apply: exprn_ge0; apply: le_trans ler01 d1.
- by apply: H; rewrite inE eqxx.
- by apply: IH => w Hw; apply: H; rewrite inE Hw orbT.
Qed.

Lemma divisor_bound (P p q : {poly algC}) (B x : algC) : P = p * q -> 0 <= B -> 1 <= `|lead_coef P| -> 1 <= `|lead_coef p| -> (forall i, `|P`_i| <= B) ->
  (1 < size p)%N -> B + 2%:R <= x -> x - 1 - B <= `|p.[x]|.
Proof.
move=> E B0 LP Lp HB Sp Hx.
have [r Er] := closed_field_poly_normal p.
have pn0 : p != 0 by apply/eqP => P0; move: Lp; rewrite P0 lead_coef0 normr0 ler10.
have lp0 : lead_coef p != 0 by rewrite lead_coef_eq0.
have Sr : (0 < size r)%N.
  move: Sp. rewrite Er size_scale // size_prod_XsubC ltnS. by [].
have d1 : 1 <= x - 1 - B by rewrite ler_subr_addr ler_subr_addr addrAC -mulr2n addrC.
rewrite Er hornerZ horner_prod normrM normr_prod.
apply: (@le_trans _ _ (\prod_(z <- r) `|x - z|)); last first.
  rewrite -{1}[\prod_(z <- r) _]mul1r. apply: ler_pmul => //.
  - by apply: prodr_ge0 => z _; apply: normr_ge0.
  - by under eq_bigr do rewrite -hornerXsubC.
apply: le_trans (@prod_bound r x (x - 1 - B) d1 _).
  by apply: ler_eexpr.
move=> z Hz. have rz : root P z.
  rewrite E rootM Er rootZ // root_prod_XsubC Hz. by [].
have Cz := cauchy B0 LP HB rz.
have x0 : 0 <= x by apply: le_trans Hx; rewrite addr_ge0 // ler0n.
have Ex : `|x| - `|z| <= `|x - z| by apply: ler_sub_dist.
apply: le_trans Ex. rewrite ger0_norm // -addrA ler_add2l -opprD ler_opp2. exact: Cz.
Qed.

(** ** From Coq's Z to algC *)
Delimit Scope Z_scope with CZ.

Definition iota (c : Z) : algC := (int_of_Z c)%:~R.
Lemma iota_is_rmorphism : rmorphism iota.
Proof.
split; first by move=> a b; rewrite /iota raddfB /= rmorphB.
by split=> [a b|]; rewrite /iota ?rmorphM ?rmorph1.
Qed.
Canonical iota_additive := Additive iota_is_rmorphism.
Canonical iota_rmorphism := RMorphism iota_is_rmorphism.
Lemma iota_nat n : iota (Z.of_nat n) = n%:R.
Proof. by rewrite /iota; case: n => [|n] //=; rewrite SuccNat2Pos.id_succ. Qed.
Lemma iota_ge0 c : (0 <= c)%CZ -> 0 <= iota c.
Proof. by move=> H; rewrite -(Z2Nat.id c H) iota_nat ler0n. Qed.
Lemma iota_ge1 c : (1 <= c)%CZ -> 1 <= iota c.
Proof. move=> H. have H0 : (0 <= c)%CZ by lia. by rewrite -(Z2Nat.id c H0) iota_nat ler1n; lia. Qed.
Lemma iota_norm c : `|iota c| = iota (Z.abs c).
Proof.
case: (Z.le_gt_cases 0 c) => H.
- by rewrite Z.abs_eq // ger0_norm // iota_ge0.
- rewrite Z.abs_neq; last lia. rewrite -normrN -rmorphN ger0_norm //. apply: iota_ge0. rewrite /GRing.opp /=. lia.
Qed.
Lemma iota_le a b : (a <= b)%CZ -> iota a <= iota b.
Proof. move=> H. rewrite -subr_ge0 -rmorphB. apply: iota_ge0. rewrite /GRing.add /GRing.opp /=. lia. Qed.
Lemma iota_le_inv a b : iota a <= iota b -> (a <= b)%CZ.
Proof.
move=> H. case: (Z.le_gt_cases a b) => // L. exfalso.
have : 1 <= iota (a - b)%R by apply: iota_ge1; rewrite /GRing.add /GRing.opp /=; lia.
rewrite rmorphB /= => L1. move: H. rewrite -subr_le0 => L0. have := le_trans L1 L0. by rewrite ler10.
Qed.
Lemma iota_nz c : c <> 0%CZ -> 1 <= `|iota c|.
Proof. move=> H. rewrite iota_norm. apply: iota_ge1. lia. Qed.

(** ** From the specification polynomials to {poly Z} *)
Definition PZ : coefs {poly Z} := Coefs {poly Z} 0 1 (fun a b => a + b) (fun a b => a * b) (fun a b => a - b) (fun a => - a) (fun a b => a == b) (fun a _ => a) (fun _ _ => 0).
Lemma PZ_ring : ring_ok PZ.
Proof.
split; last by move=> a b; split=> [/eqP|/eqP].
split=> /=; intros; rewrite ?add0r ?mul1r ?mulrDl ?subrr //; [exact: addrC|exact: addrA|exact: mulrC|exact: mulrA].
Qed.
Definition toP (r : rpoly Z) : {poly Z} := reval PZ (fun _ => 'X) (rmapc (fun c : Z => c%:P) r).
Lemma toP_mul (p q r : rpoly Z) : req Zc r (rmul Zc p q) -> toP r = toP p * toP q.
Proof.
move=> E. rewrite /toP.
have HKz := domain_ring Zc Zc_domain. have HKp := PZ_ring.
have E' := rmapc_mul Zc PZ (fun c : Z => c%:P) (erefl _) (fun a b => polyCD a b) (fun a b => polyCM a b) _ _ _ E.
transitivity (reval PZ (fun _ => 'X) (rmul PZ (rmapc (fun c : Z => c%:P) p) (rmapc (fun c : Z => c%:P) q))).
- rewrite !(reval_rsum PZ). apply: (rsum_req PZ HKp _ _ _ _ E').
- exact: (reval_mul PZ HKp).
Qed.
Lemma cpow_X n : cpow PZ 'X n = 'X^n.
Proof. by elim: n => [|n IH] //=; rewrite IH exprS. Qed.
Lemma cpow_Z (x : Z) n : cpow Zc x n = x ^+ n.
Proof. by elim: n => [|n IH] //=; rewrite IH exprS. Qed.
Lemma toP_eval (r : rpoly Z) (x : Z) : (toP r).[x] = reval Zc (fun _ => x) r.
Proof.
have M m : (meval PZ (fun _ => 'X) m).[x] = meval Zc (fun _ => x) m.
  elim: m => [|[v e] m IH] /=; first by rewrite hornerE.
  by rewrite hornerM IH cpow_X cpow_Z hornerXn.
elim: r => [|[m c] r IH]; first by rewrite /toP /= horner0.
rewrite /toP /= -/(toP r) hornerD hornerM hornerC M IH. by [].
Qed.
Lemma toP_coef (F : list (Z * Z)) i : List.Forall (fun t => uok (fst t)) F ->
  (toP (graw usm F))`_i = coef Zc (graw usm F) (usm (Z.of_nat i)).
Proof.
elim: F => [|[e c] F IH] H; first by rewrite /toP /= coef0.
have He : (0 <= e)%CZ := List.Forall_inv H.
rewrite /toP /= -/(toP (graw usm F)) coefD mulr1 cpow_X coefCM coefXn IH; last exact: List.Forall_inv_tail H.
have -> : meqb [:: (0%num, Z.to_N e)] (usm (Z.of_nat i)) = (i == N.to_nat (Z.to_N e)).
  case: (meqb_spec [:: (0%num, Z.to_N e)] (usm (Z.of_nat i))) => E.
  - have := E 0%num. rewrite /usm /=. move=> X. apply/esym/eqP. lia.
  - apply/esym/eqP => X. apply: E => v. rewrite /usm /= X. case: (N.eqb_spec 0 v) => _ //. lia.
case: (i == _); first by rewrite mulr1.
by rewrite mulr0 add0r.
Qed.

(** ** The theorem *)
Theorem divisor_value (F k : list (Z * Z)) (m : rpoly Z) (B xi : Z) :
  List.Forall (fun t => uok (fst t)) F -> List.Forall (fun t => uok (fst t)) k ->
  req Zc (graw usm F) (rmul Zc (graw usm k) m) ->
  (0 <= B)%CZ -> (forall s, Z.abs (coef Zc (graw usm F) s) <= B)%CZ ->
  (exists s, coef Zc (graw usm F) (usm (Z.of_nat s)) <> 0%CZ) ->
  (exists j, (1 <= Z.of_nat j)%CZ /\ coef Zc (graw usm k) (usm (Z.of_nat j)) <> 0%CZ) ->
  (B + 2 <= xi)%CZ -> (xi - 1 - B <= Z.abs (reval Zc (fun _ => xi) (graw usm k)))%CZ.
Proof.
move=> OF Ok E B0 HB [s0 Fs] [j [Hj Kj]] Hx.
have EP := toP_mul E.
set P := toP (graw usm F) in EP *. set p := toP (graw usm k) in EP *. set q := toP m in EP *.
have inj : injective iota.
  move=> a b H. have H1 : iota a <= iota b by rewrite H. have H2 : iota b <= iota a by rewrite H. have := iota_le_inv H1. have := iota_le_inv H2. lia.
have P0 : P != 0. { apply/eqP => X. apply: Fs. rewrite -(toP_coef s0 OF) -/P X coef0. by []. }
have Sp : (1 < size p)%N.
  case: (ltnP 1 (size p)) => // L. exfalso. apply: Kj. rewrite -(toP_coef j Ok) -/p nth_default //. apply: (leq_trans L). lia.
have p0 : p != 0. { apply/eqP => X. move: Sp. by rewrite X size_poly0. }
have lead (g : {poly Z}) : g != 0 -> 1 <= `|lead_coef (map_poly iota g)|.
  move=> g0. rewrite lead_coef_map_inj //.
  apply: iota_nz. move=> X. move: g0. rewrite -lead_coef_eq0. by move/eqP: X => ->.
have := @divisor_bound (map_poly iota P) (map_poly iota p) (map_poly iota q) (iota B) (iota xi).
rewrite horner_map /= toP_eval => H.
have {}H : iota xi - 1 - iota B <= `|iota (reval Zc (fun=> xi) (graw usm k))|.
  apply: H.
  - by rewrite EP rmorphM.
  - exact: iota_ge0.
  - exact: lead.
  - exact: lead.
  - move=> i. rewrite coef_map /= iota_norm. apply: iota_le. rewrite toP_coef //.
  - by rewrite size_map_inj_poly.
  - have <- : iota 2%CZ = 2%:R by rewrite -(iota_nat 2).
    rewrite -rmorphD. apply: iota_le. rewrite /GRing.add /=. lia.
move: H. rewrite iota_norm -(rmorph1 iota_rmorphism) -!rmorphB /= => /iota_le_inv. by [].
Qed.
