(** * C45: comparison and refinement of isolated real roots (class uroot, realroot.hh, realroot.cc).

    Statements about roots are for an arbitrary real closed field R, as in Props_Real.v.  [ps] is the sequence of primes
    used by the gcd, [srt] its sort, [fuel] a bound on the work. *)
From Verif Require Import Prelude Coef Spec SpecProofs GcdDom GcdPoly GcdProofs MonoStruct MonoStructProofs OrderSpec PairVec PairVecProofs Heap Poly
  PolyMulProofs PolyOps ConvertProofs Zp NumSpec ZpProofs Gcd UGcd QQ QQProofs UGcdBase UGcdProofs UGcdMod UGcdMain Uspensky RootBound Uroot Props_Gcd.
From mathcomp Require Import all_ssreflect all_algebra ssrZ polyrcf realalg.
From Verif Require Import UspMath UspBase UspTrans UspSqf UspIso UspTerm UrootBase UrootProofs UspTop Props_Real.
Import Order.TTheory GRing.Theory Num.Theory.
Set Implicit Arguments.
Unset Strict Implicit.
Local Open Scope ring_scope.
Delimit Scope Z_scope with CZ.

(** ** specification *)
(** value of the derivative of p at x *)
Definition slope (R : rcfType) (p : list (Z * Z)) (x : R) : R := \sum_(t <- p) intv R (t.2 * t.1)%CZ * x ^+ (Z.to_nat t.1).-1.
(** the object holds the real number a: a is a simple root of its polynomial, and its interval is the point a or an
    interval with a as an inner point and no other root of the polynomial *)
Definition holds_root (R : rcfType) (o : uroot) (a : R) : Prop :=
  [/\ upolynomial (ur_poly o), (udeg (ur_poly o) < 2 ^ 62 - 1)%CZ, value (ur_poly o) a = 0, slope (ur_poly o) a <> 0 &
   (ratv R (ur_left o) = a /\ ratv R (ur_right o) = a) \/
   [/\ ratv R (ur_left o) < a, a < ratv R (ur_right o) & forall x, ratv R (ur_left o) <= x -> x <= ratv R (ur_right o) -> value (ur_poly o) x = 0 -> x = a]].
Definition rational (R : rcfType) (a : R) : Prop := exists q, a = ratv R q.

(** ** bridge *)
Lemma slope_tr (R : rcfType) p (x : R) : poly1 p -> slope p x = (tr R p)^`().[x].
Proof.
move=> N. rewrite /slope. elim: p N => [|[e c] p IH] N; first by rewrite big_nil tr_nil deriv0 horner0.
rewrite big_cons (IH (n_tl N)) tr_cons derivD hornerD. congr (_ + _). rewrite derivZ hornerZ derivXn hornerMn hornerXn /=.
have [/= e0 _] := n_in N (or_introl erefl). change (zr R (c * e)%CZ * x ^+ (Z.to_nat e).-1 = zr R c * (x ^+ (Z.to_nat e).-1 *+ Z.to_nat e)).
by rewrite zr_mul -mulr_natr -(zr_nat R) Z2Nat.id // -mulrA [x ^+ _ * _]mulrC.
Qed.
Lemma holds_rep (R : rcfType) o (a : R) : holds_root o a <-> rep o a.
Proof.
have V : forall p x, value p x = (tr R p).[x] by move=> p x; rewrite tr_horner.
split.
- move=> [[N D] D' E S H]. split.
  + split=> //. split; first by move=> Ep; case: S; rewrite Ep /slope big_nil. split=> //. split; first by rewrite /root -V E.
    rewrite -(slope_tr _ N). exact/eqP.
  + case: H => [H|[H1 H2 H3]]; [by left|right]. split=> // x x1 x2 /eqP Rx. apply: H3 => //. by rewrite V.
- move=> [[N [Ne [D [Ra Da]]]] H]. split=> //.
  + split=> //. move: D. rewrite /maxdeg. lia.
  + by rewrite V; apply/eqP.
  + rewrite (slope_tr _ N). exact/eqP.
  + case: H => [H|[H1 H2 H3]]; [by left|right]. split=> // x x1 x2. rewrite V => /eqP. exact: H3.
Qed.

Lemma three_way (R : rcfType) (d : Z) (p q : R) : [\/ d = 1%CZ /\ p < q, d = 0%CZ /\ p = q | d = (-1)%CZ /\ q < p] ->
  (d = 1%CZ <-> p < q) /\ (d = 0%CZ <-> p = q) /\ (d = (-1)%CZ <-> q < p).
Proof.
case=> [[-> H]|[-> ->]|[-> H]].
- split=> //. split; split=> // X; [by move: H; rewrite X ltxx|by move: (lt_trans H X); rewrite ltxx].
- rewrite ltxx. by split.
- split; first by split=> // X; move: (lt_trans H X); rewrite ltxx. split=> //. split=> // X. by move: H; rewrite X ltxx.
Qed.

(** ** C45 *)
Section Comp.
Variable srt : upz -> upz.
Variable ps : nat -> pmod.
Hypothesis Hps : forall i, Znumtheory.prime (pm (ps i)).

(** comparison of two roots: the objects still hold the same numbers; 0 is returned exactly if the numbers are equal;
    1 (-1) is returned only if the first (second) is smaller, except that the smaller one may be reported as the larger
    one if it is rational: then the interval of the larger one starts at it.  In full the claim is without this
    exception; the exception does occur (below). *)
Theorem C45_compare_partial (R : rcfType) fuel x y (a b : R) c x' y' : holds_root x a -> holds_root y b ->
  uroot_comp srt ps fuel (Fin x) (Fin y) = Ok (c, x', y') ->
  exists u v, [/\ x' = Fin u, y' = Fin v, holds_root u a, holds_root v b &
    [/\ (c = 0%CZ <-> a = b), (c = 1 \/ c = 0 \/ c = -1)%CZ,
        (c = 1%CZ -> a < b \/ [/\ b < a, ratv R (ur_left u) = b & rational b]) &
        (c = (-1)%CZ -> b < a \/ [/\ a < b, ratv R (ur_left v) = a & rational a])]].
Proof.
move=> /holds_rep Rx /holds_rep Ry. rewrite /uroot_comp. case E: (comp_fin _ _ _ _ _) => [[[d u] v]| | |] //= [<- <- <-].
have [Ru Rv A] := comp_ok Hps Rx Ry E. exists u, v. split=> //; try by apply/holds_rep.
have B : forall s t (p q : R), rep s p -> rep t q -> p <> q -> bad R s t -> p < q \/ [/\ q < p, ratv R (ur_left s) = q & rational q].
  move=> s t p q Rs Rt N [B1 B2 B3].
  have Eq : ratv R (ur_left t) = q.
    case: (Rt) => _ [[<- _]|[H1 H2 _]] //. by move: (lt_trans H1 H2); rewrite B2 ltxx.
  have Es : ratv R (ur_left s) = q by rewrite -Eq. 
  case: (ltgtP p q) => C; [by left| |by case: N]. right. split=> //. by exists (ur_left t).
case: A => [[-> Eab]|[-> N H]|[-> N H]]; split=> //; try by [left|right; left|right; right].
- move=> _. case: H => [H|H]; [by left|exact: (B u v)].
- move=> _. case: H => [H|H]; [by left|]. exact: (B v u _ _ Rv Ru (nesym N) H).
Qed.
(** so the comparison is right for irrational roots *)
Theorem C45_compare_irrational (R : rcfType) fuel x y (a b : R) c x' y' : holds_root x a -> holds_root y b -> ~ rational a -> ~ rational b ->
  uroot_comp srt ps fuel (Fin x) (Fin y) = Ok (c, x', y') -> (c = 1%CZ <-> a < b) /\ (c = 0%CZ <-> a = b) /\ (c = (-1)%CZ <-> b < a).
Proof.
move=> Hx Hy Na Nb E. have [u [v [_ _ _ _ [H0 Hc H1 H2]]]] := C45_compare_partial Hx Hy E.
have G1 : c = 1%CZ -> a < b by move/H1 => [//|[_ _ /Nb]]. have G2 : c = (-1)%CZ -> b < a by move/H2 => [//|[_ _ /Na]].
split; [|split=> //].
- split=> // H. case: Hc => [//|[/H0 X|/G2 X]]; first by move: H; rewrite X ltxx. by move: (lt_trans H X); rewrite ltxx.
- split=> // H. case: Hc => [/G1 X|[/H0 X|//]]; last by move: H; rewrite X ltxx. by move: (lt_trans H X); rewrite ltxx.
Qed.
(** a root with a point interval (as the isolation returns for a rational root it has met) is compared correctly *)
Theorem C45_compare_point (R : rcfType) fuel x y (a b : R) c x' y' : holds_root x a -> holds_root y b ->
  (ratv R (ur_left x) = ratv R (ur_right x) \/ ratv R (ur_left y) = ratv R (ur_right y)) ->
  uroot_comp srt ps fuel (Fin x) (Fin y) = Ok (c, x', y') -> (c = 1%CZ <-> a < b) /\ (c = 0%CZ <-> a = b) /\ (c = (-1)%CZ <-> b < a).
Proof.
move=> /holds_rep Rx /holds_rep Ry Hpt. rewrite /uroot_comp /comp_fin.
have Ex : qqc_eqb (ur_left x) (ur_right x) -> UspIso.qr R (ur_left x) = a.
  rewrite (qr_eqb R) => /eqP Q. case: Rx => _ [[-> //]|[la ar _]]. by move: (lt_trans la ar); rewrite Q ltxx.
have Ey : qqc_eqb (ur_left y) (ur_right y) -> UspIso.qr R (ur_left y) = b.
  rewrite (qr_eqb R) => /eqP Q. case: Ry => _ [[-> //]|[la ar _]]. by move: (lt_trans la ar); rewrite Q ltxx.
case Q1: (qqc_eqb (ur_left x) (ur_right x)).
  have [d [s [-> [_ H]]]] /= := comp_q_ok (ur_left x) Ry. move=> [<- _ _]. rewrite (Ex Q1) in H. apply: three_way. by case: H => [[-> H]|[-> H]|[-> H]]; [constructor 3|constructor 2|constructor 1].
case Q2: (qqc_eqb (ur_left y) (ur_right y)).
  have [d [s [-> [_ H]]]] /= := comp_q_ok (ur_left y) Rx. move=> [<- _ _]. rewrite (Ey Q2) in H. exact: three_way.
case: Hpt => Hpt; [move: Q1|move: Q2]; rewrite (qr_eqb R) => /eqP; by case.
Qed.
(** the comparison returns if the gcd of the two polynomials and the two quotients by it do *)
Theorem C45_terminates (x y : uroot) (a b : realalg) : holds_root (R := [rcfType of realalg]) x a -> holds_root (R := [rcfType of realalg]) y b ->
  exists N, forall fuel, (N <= fuel)%N ->
    (exists g q1 q2, [/\ upoly_gcd srt ps fuel (ur_poly x) (ur_poly y) = Ok g, udiv fuel (ur_poly x) g = Ok q1 & udiv fuel (ur_poly y) g = Ok q2]) ->
    (exists g q1 q2, [/\ upoly_gcd srt ps fuel (ur_poly y) (ur_poly x) = Ok g, udiv fuel (ur_poly y) g = Ok q1 & udiv fuel (ur_poly x) g = Ok q2]) ->
    exists res, uroot_comp srt ps fuel (Fin x) (Fin y) = Ok res.
Proof.
move=> /holds_rep Rx /holds_rep Ry. have [N H] := comp_total srt Hps archi Rx Ry. exists N => fuel L H1 H2. rewrite /uroot_comp.
have [[[c u] v] ->] := H fuel L H1 H2. by eexists.
Qed.
(** the infinities *)
Theorem C45_compare_infinite fuel x : 
  uroot_comp srt ps fuel NegInf NegInf = Ok (0%CZ, NegInf, NegInf) /\ uroot_comp srt ps fuel Inf Inf = Ok (0%CZ, Inf, Inf) /\
  (x <> NegInf -> uroot_comp srt ps fuel NegInf x = Ok (1%CZ, NegInf, x) /\ uroot_comp srt ps fuel x NegInf = Ok ((-1)%CZ, x, NegInf)) /\
  (x <> Inf -> uroot_comp srt ps fuel Inf x = Ok ((-1)%CZ, Inf, x) /\ uroot_comp srt ps fuel x Inf = Ok (1%CZ, x, Inf)).
Proof. split=> //. split=> //. by case: x => [| |r]. Qed.
End Comp.

(** comparison with a rational number: always right, and always returns *)
Theorem C45_compare_with_rational (R : rcfType) o (a : R) q : holds_root o a ->
  exists c u, [/\ uroot_comp_qx (Fin o) q = Ok (c, Fin u), holds_root u a &
    [/\ (c = 1 \/ c = 0 \/ c = -1)%CZ, (c = 1%CZ <-> a < ratv R q), (c = 0%CZ <-> a = ratv R q) & (c = (-1)%CZ <-> ratv R q < a)]].
Proof.
move=> /holds_rep Ro. have [c [u [E [Ru H]]]] := comp_q_ok q Ro. exists c, u. rewrite /= E. split=> //; first by apply/holds_rep.
change (UspIso.qr R q) with (ratv R q) in H.
have [H1 [H2 H3]] := three_way H. split=> //. case: H => [[-> _]|[-> _]|[-> _]]; tauto.
Qed.
Theorem C45_infinite_with_rational q : uroot_comp_qx NegInf q = Ok (1%CZ, NegInf) /\ uroot_comp_qx Inf q = Ok ((-1)%CZ, Inf).
Proof. by []. Qed.
(** refinement: shrinkinterval keeps the root and at least halves the interval *)
Theorem C45_shrink (R : rcfType) o (a : R) : holds_root o a ->
  exists u, [/\ shrink_interval o = Ok u, holds_root u a, ur_poly u = ur_poly o &
    [/\ ratv R (ur_left o) <= ratv R (ur_left u), ratv R (ur_right u) <= ratv R (ur_right o) &
        ratv R (ur_right u) - ratv R (ur_left u) <= (ratv R (ur_right o) - ratv R (ur_left o)) / 2%:R]].
Proof.
move=> /holds_rep Ro. have [u E [Ru [P [H1 [H2 H3]]]]] := shrink_interval_ok Ro. exists u. split=> //. by apply/holds_rep.
Qed.
(** the objects made from what the isolation returns hold the roots that the isolation has found *)
Theorem C45_isolation_gives_roots (R : rcfType) Gs fuel l : (forall g, List.In g Gs -> upolynomial g /\ (udeg g < 2 ^ 62 - 1)%CZ) ->
  (forall g, List.In g Gs -> g <> [::] -> squarefree g) -> uspensky_v fuel Gs = Ok l ->
  exists rs : seq R, [/\ sorted <%R rs, (forall x, x \in rs <-> root_of Gs x) &
    List.Forall2 (fun t r => exists2 g, List.nth_error Gs t.2 = Some g & holds_root (Uroot g t.1.1 t.1.2) r) l rs].
Proof.
move=> HG Hsq E. have HG' : forall g, List.In g Gs -> upolynomial g by move=> g /HG [].
have [rs [[Srt M F _] Fi]] := @C36_isolates_all_roots Gs HG' R fuel l E. exists rs. split=> // {Srt}.
have {}F : List.Forall2 (fun t r => holds_only (@root_of Gs R) (interval R t.1) r) l rs.
  elim: l rs F {E M Fi} => [|t l IH] [|r rs] F /=; try (by inversion F). inversion F; subst. constructor=> //. exact: IH.
elim: F Fi {E M} => [|t r l' r' H1 _ IH] Fi; first by constructor.
inversion Fi as [|? ? ? ? H2 Fi']; subst. constructor; last exact: IH.
case: H2 => g Hg [Nc Vr]. have Ig := List.nth_error_In _ _ Hg. have [[N D] D'] := HG g Ig.
have Ne : g <> [::] by move=> Eg; case: Nc; rewrite Eg.
exists g => //. split=> //=.
- rewrite (slope_tr _ N). apply/eqP. have C := sqfree_coprime R N Ne (sqf_of (Hsq g Ig Ne)).
  apply: (coprimep_root C). by rewrite /root tr_horner; apply/eqP.
- case: H1 => [H1|[H1 H2 _ H3]]; [by left|right]. split=> // x x1 x2 X. apply: H3 => //. by exists g.
Qed.

(** ** the exception occurs: isolate 7/8, the root of 8x-7, and 3/4, the root of 4x-3; both intervals are [1/2, 1];
    the comparison answers "smaller" in both directions *)
Definition half_one (p : list (Z * Z)) : uroot := Uroot p q_half (qqc_int 1).
Definition p78 : list (Z * Z) := [:: (1, 8); (0, -7)]%CZ.
Definition p34 : list (Z * Z) := [:: (1, 4); (0, -3)]%CZ.
Definition intervals (l : outcome (list item)) : list (qq * qq * nat) := match l with Ok l => List.map (fun t => (proj1_sig t.1.1, proj1_sig t.1.2, t.2)) l | _ => [::] end.
Definition answer_of (o : outcome (Z * xroot * xroot)) : option Z := match o with Ok (c, _, _) => Some c | _ => None end.
Lemma lin_root (R : rcfType) (m n : Z) : (0 < m)%CZ -> (n < m)%CZ -> (m < 2 * n)%CZ -> holds_root (half_one [:: (1, m); (0, - n)]%CZ) (intv R n / intv R m).
Proof.
move=> m0 nm mn. have M0 : 0 < intv R m := zr_lt0 R m0. have V : forall x, value [:: (1, m); (0, - n)]%CZ x = intv R m * x - intv R n.
  move=> x. rewrite /value !big_cons big_nil addr0 /= expr1 expr0 mulr1. congr (_ + _). exact: zr_opp.
have Rt : value [:: (1, m); (0, - n)]%CZ (intv R n / intv R m) = 0 by rewrite V mulrC divfK ?subrr // gt_eqF.
split=> //.
- split=> //=. apply: n_cons => //; [lia|by move=> t [<-|[]]|]. apply: n_cons => //; [lia|exact: n_nil].
- rewrite /slope !big_cons big_nil /= !addr0 expr0 !mulr1. rewrite Z.mul_1_r Z.mul_0_r. change (zr R m + zr R 0%CZ <> 0). rewrite zr_0 addr0. apply/eqP. by rewrite gt_eqF.
- right. rewrite /half_one /=. change (ratv R q_half) with (UspIso.qr R q_half). change (ratv R (qqc_int 1)) with (UspIso.qr R (qqc_int 1)).
  rewrite qr_q_half qr_int zr_1. have T2 : 0 < (2%:R : R) by rewrite ltr0n. split.
  + rewrite ltr_pdivl_mulr // mulrC ltr_pdivr_mulr // mulrC -(zr_2 R). change (zr R m < zr R 2%CZ * zr R n). rewrite -zr_mul zr_lt. apply/Z.ltb_lt. lia.
  + rewrite ltr_pdivr_mulr // mul1r. change (zr R n < zr R m). rewrite zr_lt. apply/Z.ltb_lt. lia.
  + move=> x _ _. rewrite V => /eqP. rewrite subr_eq0 => /eqP <-. by rewrite mulrAC divff ?mul1r // gt_eqF.
Qed.
Theorem C45_order_refuted (R : rcfType) :
  [/\ intervals (uspensky_v 20 [:: p78]) = [:: ({| qnum := 1; qden := 2 |}, {| qnum := 1; qden := 1 |}, 0%N)],
      intervals (uspensky_v 20 [:: p34]) = [:: ({| qnum := 1; qden := 2 |}, {| qnum := 1; qden := 1 |}, 0%N)],
      holds_root (half_one p78) (intv R 7%CZ / intv R 8%CZ) /\ holds_root (half_one p34) (intv R 3%CZ / intv R 4%CZ),
      intv R 3%CZ / intv R 4%CZ < intv R 7%CZ / intv R 8%CZ &
      answer_of (uroot_comp (fun l => l) ex_ps 10 (Fin (half_one p78)) (Fin (half_one p34))) = Some 1%CZ /\
      answer_of (uroot_comp (fun l => l) ex_ps 10 (Fin (half_one p34)) (Fin (half_one p78))) = Some 1%CZ].
Proof.
split.
- by vm_compute.
- by vm_compute.
- split; [exact: (@lin_root R 8%CZ 7%CZ)|exact: (@lin_root R 4%CZ 3%CZ)].
- have A : 0 < intv R 4%CZ := @zr_lt0 R 4%CZ erefl. have B : 0 < intv R 8%CZ := @zr_lt0 R 8%CZ erefl.
  rewrite ltr_pdivr_mulr // mulrAC ltr_pdivl_mulr //. change (zr R 3%CZ * zr R 8%CZ < zr R 7%CZ * zr R 4%CZ). by rewrite -!zr_mul zr_lt.
- split; by vm_compute.
Qed.
Print Assumptions C45_compare_partial.
Print Assumptions C45_compare_irrational.
Print Assumptions C45_compare_point.
Print Assumptions C45_terminates.
Print Assumptions C45_compare_infinite.
Print Assumptions C45_compare_with_rational.
Print Assumptions C45_infinite_with_rational.
Print Assumptions C45_shrink.
Print Assumptions C45_isolation_gives_roots.
Print Assumptions C45_order_refuted.
(** hypotheses are met: [lin_root] gives objects holding n/m; here is a comparison that is right, 5/8 < 7/8 *)
Example C45_ex : answer_of (uroot_comp (fun l => l) ex_ps 10 (Fin (half_one [:: (1, 8); (0, -5)]%CZ)) (Fin (half_one p78))) = Some 1%CZ /\
  holds_root (half_one [:: (1, 8); (0, -5)]%CZ) (intv [rcfType of realalg] 5%CZ / intv _ 8%CZ).
Proof. split; [by vm_compute|exact: (@lin_root _ 8%CZ 5%CZ)]. Qed.
