(** * Refinement and comparison of isolated roots (Uroot.v): proofs. *)
From Verif Require Import Prelude Coef Spec SpecProofs GcdDom GcdPoly GcdProofs MonoStruct MonoStructProofs OrderSpec PairVec PairVecProofs Heap Poly
  PolyMulProofs PolyOps ConvertProofs Zp NumSpec ZpProofs Gcd UGcd QQ QQProofs UGcdBase UGcdProofs UGcdMod UGcdMain Uspensky RootBound Uroot.
From mathcomp Require Import all_ssreflect all_algebra ssrZ polyrcf realalg.
From Verif Require Import UspMath UspBase UspTrans UspSqf UspIso UspTerm UrootBase.
Import Order.TTheory GRing.Theory Num.Theory.
Set Implicit Arguments.
Unset Strict Implicit.
Local Open Scope ring_scope.
Delimit Scope Z_scope with CZ.
Local Notation unorm := (normal uok (m_gt uniS) Zc).
Local Notation HKz := (domain_ring Zc Zc_domain).

Section R.
Variable R : rcfType.
Notation tr := (tr R).
Notation zr := (zr R).
Notation qr := (qr R).

(** a is a simple root of p *)
Definition good (p : uz) (a : R) : Prop := unorm p /\ p <> [::] /\ (Uspensky.udeg p < maxdeg)%CZ /\ root (tr p) a /\ (tr p)^`().[a] != 0.
(** a is in the interval and no other root is *)
Definition holds (p : uz) (l r a : R) : Prop := (l = a /\ r = a) \/ [/\ l < a, a < r & forall x, l <= x -> x <= r -> root (tr p) x -> x = a].
Definition rep (r : uroot) (a : R) : Prop := good (ur_poly r) a /\ holds (ur_poly r) (qr (ur_left r)) (qr (ur_right r)) a.

Lemma sg_eq0 (x s : R) : s != 0 -> Num.sg x * s = 0 -> x = 0.
Proof. move=> s0 /eqP. by rewrite mulf_eq0 (negbTE s0) orbF sgr_eq0 => /eqP. Qed.
Lemma check_ok (r : uroot) (m : qqc) a : rep r a ->
  exists2 r', uroot_check r m = Ok r' & rep r' a /\ ur_poly r' = ur_poly r /\
   ([/\ r' = r & [\/ qr m < qr (ur_left r), qr (ur_right r) < qr m | qr (ur_left r) = a /\ qr (ur_right r) = a]] \/
    [/\ qr (ur_left r) <= qr m, qr m <= qr (ur_right r), qr (ur_left r) < a, a < qr (ur_right r) &
      [\/ a = qr m /\ r' = Uroot (ur_poly r) m m, a < qr m /\ r' = Uroot (ur_poly r) (ur_left r) m | qr m < a /\ r' = Uroot (ur_poly r) m (ur_right r)]]).
Proof.
case: r => p l r [Gp H]. rewrite /uroot_check /= in Gp H *.
rewrite !(qr_ltb R) (qr_eqb R). case: (ltP (qr m) (qr l)) => L1 /=.
  exists (Uroot p l r) => //; split=> //; split=> //. left. split=> //. by constructor 1.
case: (ltP (qr r) (qr m)) => L2 /=.
  exists (Uroot p l r) => //; split=> //; split=> //. left. split=> //. by constructor 2.
case: eqP => E /=.
  exists (Uroot p l r) => //; split=> //; split=> //. left. split=> //. constructor 3. case: H => // -[H1 H2]. by move: (lt_trans H1 H2); rewrite E ltxx.
case: H => [[H1 H2]|[la ar U]]; first by case: E; rewrite H1 H2.
case: Gp => Np [Ne [D [Ra Da]]].
have [s s0 S] := sign_at Da (ltW la) (ltW ar) Ra U.
have M0 : ((tr p).[qr m] == 0) = (a == qr m).
  apply/idP/idP => [Z0|/eqP <- //]. by rewrite (U _ L1 L2 Z0).
have Rr : (tr p).[qr r] != 0. { apply/negP => Z0. have := U _ (ltW (lt_trans la ar)) (lexx _) Z0. by move=> Er; move: ar; rewrite Er ltxx. }
rewrite !(q_is0_ok R) !(sgn_eqb R) !qr_assign M0 (negbTE Rr).
have Sm := S _ L1 L2. have Sr := S _ (ltW (lt_trans la ar)) (lexx _). have sr1 : Num.sg (qr r - a) = 1 by apply: gtr0_sg; rewrite subr_gt0.
rewrite sr1 mul1r in Sr. rewrite Sm Sr.
case: (ltgtP a (qr m)) => C /=.
- have -> : Num.sg (qr m - a) = 1 by apply: gtr0_sg; rewrite subr_gt0. rewrite mul1r eqxx.
  exists (Uroot p l m) => //; split; last first. { split=> //. right. split=> //. by constructor 2. }
  split=> //=. right. split=> // x x1 x2. apply: U => //. exact: le_trans x2 L2.
- have -> : Num.sg (qr m - a) = -1 by apply: ltr0_sg; rewrite subr_lt0. rewrite mulN1r.
  have -> : (- s == s) = false. { apply/negbTE. rewrite eq_sym -subr_eq0 opprK -mulr2n mulrn_eq0. by []. }
  exists (Uroot p m r) => //; split; last first. { split=> //. right. split=> //. by constructor 3. }
  split=> //=. right. split=> // x x1 x2. apply: U => //. exact: le_trans L1 x1.
- exists (Uroot p m m) => //; split; last first. { split=> //. right. split=> //. by constructor 1. }
  split=> //=. by left.
Qed.
(** the comparison with a rational *)
Lemma comp_q_ok (r : uroot) (q : qqc) a : rep r a ->
  exists c r', uroot_comp_q r q = Ok (c, r') /\ rep r' a /\ [\/ c = 1%CZ /\ a < qr q, c = 0%CZ /\ a = qr q | c = (-1)%CZ /\ qr q < a].
Proof.
case: r => p l r [Gp H]. rewrite /uroot_comp_q /= in Gp H *.
rewrite !(qr_ltb R) !(qr_eqb R).
case: H => [[H1 H2]|[la ar U]].
- have Rp : rep (Uroot p l r) a by split=> //; left.
  rewrite H1 H2 eqxx andbT. case: eqP => [->|Nq]; first by exists 0%CZ, (Uroot p l r); split=> //; split=> //; constructor 2.
  case: (ltgtP a (qr q)) => C; last by case: Nq.
    by exists 1%CZ, (Uroot p l r); split=> //; split=> //; constructor 1.
  by exists (-1)%CZ, (Uroot p l r); split=> //; split=> //; constructor 3.
- have Rp : rep (Uroot p l r) a by split=> //; right.
  have -> : (qr l == qr r) = false by apply/negbTE; rewrite lt_eqF // (lt_trans la ar). rewrite andbF.
  case: (ltP (qr l) (qr q)) => C1 /=; last by exists (-1)%CZ, (Uroot p l r); split=> //; split=> //; constructor 3; split=> //; exact: le_lt_trans la.
  case: (ltP (qr q) (qr r)) => C2 /=; last by exists 1%CZ, (Uroot p l r); split=> //; split=> //; constructor 1; split=> //; exact: lt_le_trans ar C2.
  rewrite (q_is0_ok R) qr_assign. case: ifP => Q0.
    have Eq : qr q = a := U _ (ltW C1) (ltW C2) Q0.
    exists 0%CZ, (Uroot p q q); split=> //; split; last by constructor 2. split=> //=. by left.
  have [r' -> [Rr' [_ X]]] /= := check_ok q Rp. exists (if ~~ (qr (ur_left r') < qr q) then (-1)%CZ else 1%CZ), r'.
  split; first by rewrite (qr_ltb R); case: ifP. split=> //.
  case: X => [[_ /= [X|X|[X1 X2]]]|[_ _ _ _ /= [[Ea _]|[Ea ->]|[Ea ->]]]].
  + by move: (lt_trans X C1); rewrite ltxx.
  + by move: (lt_trans X C2); rewrite ltxx.
  + by move: la; rewrite X1 ltxx.
  + by move: Q0; case: Gp => _ [_ [_ [Ra _]]]; rewrite -Ea; move/eqP: Ra => ->; rewrite eqxx.
  + rewrite /= C1 /=. by constructor 1.
  + rewrite /= ltxx /=. by constructor 3.
Qed.
(** shrinkinterval *)
Lemma shrink_interval_ok (r : uroot) a : rep r a -> exists2 r', shrink_interval r = Ok r' & rep r' a /\ ur_poly r' = ur_poly r /\
  qr (ur_left r) <= qr (ur_left r') /\ qr (ur_right r') <= qr (ur_right r) /\ (qr (ur_right r') - qr (ur_left r')) <= (qr (ur_right r) - qr (ur_left r)) / 2%:R.
Proof.
move=> Rr. rewrite /shrink_interval (qr_eqb R). case: eqP => E; first by exists r => //; rewrite E !lexx subrr mul0r lexx.
have [r' Er [Rr' [Ep X]]] := check_ok (q_mid (ur_left r) (ur_right r)) Rr. exists r' => //. split=> //. split=> //.
case: Rr => _ [[H1 H2]|[la ar _]]; first by case: E; rewrite H1 H2.
have [m1 m2] := mid_in (lt_trans la ar). rewrite -qr_mid in m1 m2.
case: X => [[_ /= [X|X|[X1 X2]]]|[_ _ _ _ /= [[Ea ->]|[Ea ->]|[Ea ->]]]] /=.
- by move: (lt_trans X m1); rewrite ltxx.
- by move: (lt_trans X m2); rewrite ltxx.
- by case: E; rewrite X1 X2.
- split; first exact: ltW. split; first exact: ltW. rewrite subrr divr_ge0 ?ler0n // subr_ge0 ltW //. exact: lt_trans la ar.
- split; first exact: lexx. split; first exact: ltW. by rewrite qr_mid half_1.
- split; first exact: ltW. split; first exact: lexx. by rewrite qr_mid half_2.
Qed.

(** ** divisors *)
Lemma good_div (p g : uz) (W : {poly R}) a : good p a -> unorm g -> tr p = W * tr g -> root (tr g) a -> good g a.
Proof.
move=> [Np [Ne [D [Ra Da]]]] Ng E Rg. have p0 := tr_neq0 R Np Ne. move: (p0). rewrite E mulf_eq0 negb_or => /andP [W0 g0].
have Gne : g <> [::] by move=> Eg; move: g0; rewrite Eg tr_nil eqxx.
split=> //. split=> //. split; last first.
  split=> //. apply/negP => /eqP G0. move: Da. rewrite E derivM hornerD !hornerM G0 mulr0 addr0. by move/eqP: Rg => ->; rewrite mulr0 eqxx.
have S : (dg g <= dg p)%N.
  rewrite -ltnS -(tr_size R Np Ne) -(tr_size R Ng Gne) E size_mul //. have : (0 < size W)%N by rewrite size_poly_gt0. case: (size W) => // k _. by rewrite addSn /= leq_addl.
have d0 : forall u : uz, unorm u -> (0 <= Uspensky.udeg u)%CZ by move=> [|[e c] u] N //=; case: (n_in N (or_introl erefl)).
have gd := d0 _ Ng. have pd := d0 _ Np. move: S. rewrite /dg. move/ssrnat.leP. lia.
Qed.
Lemma holds_div (p g : uz) (W : {poly R}) l r a : tr p = W * tr g -> holds p l r a -> holds g l r a.
Proof. move=> E [H|[la ar U]]; [by left|right]. split=> // x x1 x2 Rx. apply: U => //. by rewrite E rootM Rx orbT. Qed.

Lemma uroot_in_ok (p g : uz) (W : {poly R}) (l r : qqc) a : good p a -> qr l < a -> a < qr r -> holds p (qr l) (qr r) a -> unorm g -> tr p = W * tr g ->
  uroot_in g l r = Ok (root (tr g) a).
Proof.
move=> Gp la ar H Ng E. have [[H1 _]|[_ _ U]] := H; first by move: la; rewrite H1 ltxx.
rewrite /uroot_in (qr_eqb R). have -> : (qr l == qr r) = false by apply/negbTE; rewrite lt_eqF // (lt_trans la ar).
rewrite andFb !(sgn_mul_lt R) !(sgn_mul_gt R) !qr_assign. have lr := ltW (lt_trans la ar).
case Rg: (root (tr g) a).
- have [_ [_ [_ [_ Dg]]]] := good_div Gp Ng E Rg. 
  have Ug : forall x, qr l <= x -> x <= qr r -> root (tr g) x -> x = a by move=> x x1 x2 Rx; apply: U => //; rewrite E rootM Rx orbT.
  have [s s0 S] := sign_at Dg (ltW la) (ltW ar) Rg Ug. rewrite !S //.
  have -> : Num.sg (qr r - a) = 1 by apply: gtr0_sg; rewrite subr_gt0. have -> : Num.sg (qr l - a) = -1 by apply: ltr0_sg; rewrite subr_lt0.
  by rewrite mul1r mulN1r mulrN oppr_lt0 -expr2 exprn_even_gt0 // s0.
- have NR : {in `[qr l, qr r], forall x, ~~ root (tr g) x}.
    move=> x. rewrite in_itv /= => /andP [x1 x2]. apply/negP => Rx. have xa : x = a by apply: U => //; rewrite E rootM Rx orbT. by move: Rg; rewrite -xa Rx.
  have -> : Num.sg (tr g).[qr r] = Num.sg (tr g).[qr l] by apply: (polyrN0_itv NR); rewrite in_itv /= ?lexx lr.
  have L0 : (tr g).[qr l] != 0 by apply: NR; rewrite in_itv /= lexx.
  rewrite -expr2 ltNge sqr_ge0 /= exprn_even_gt0 //= sgr_eq0 L0. by [].
Qed.

(** ** the final loop *)
Definition bad (x y : uroot) : Prop := [/\ qr (ur_left x) = qr (ur_left y), qr (ur_left y) = qr (ur_right y) & qr (ur_right y) < qr (ur_right x)].
Definition post (r1 r2 : uroot) (a b : R) : Prop := (a < b /\ qr (ur_left r1) <= qr (ur_left r2)) \/ (b < a /\ (qr (ur_left r2) < qr (ur_left r1) \/ bad r1 r2)).
Lemma same_ok r1 r2 : same_interval r1 r2 = (qr (ur_left r1) == qr (ur_left r2)) && (qr (ur_right r1) == qr (ur_right r2)).
Proof. by rewrite /same_interval !(qr_eqb R). Qed.
Lemma loop_step r1 r2 a b : rep r1 a -> rep r2 b -> a <> b -> same_interval r1 r2 ->
  exists r1' r2', [/\ uroot_check r1 (q_mid (ur_left r1) (ur_right r1)) = Ok r1', uroot_check r2 (q_mid (ur_left r2) (ur_right r2)) = Ok r2', rep r1' a, rep r2' b &
    (same_interval r1' r2' /\ qr (ur_right r1') - qr (ur_left r1') = (qr (ur_right r1) - qr (ur_left r1)) / 2%:R) \/ (~~ same_interval r1' r2' /\ post r1' r2' a b)].
Proof.
move=> R1 R2 ab. rewrite same_ok => /andP [/eqP El /eqP Er].
have S1 : qr (ur_left r1) < a /\ a < qr (ur_right r1).
  case: R1 R2 => _ [[H1 H2]|[la ar _]] [_ [[H3 H4]|[lb br _]]] //; first by case: ab; rewrite -H1 -H3. by move: (lt_trans lb br); rewrite -El -Er H1 H2 ltxx.
have S2 : qr (ur_left r2) < b /\ b < qr (ur_right r2).
  case: R1 R2 => _ [[H1 H2]|[la ar _]] [_ [[H3 H4]|[lb br _]]] //; first by case: ab; rewrite -H1 -H3. by move: (lt_trans la ar); rewrite El Er H3 H4 ltxx.
case: S1 => la ar. case: S2 => lb br.
have [m1 m2] := mid_in (lt_trans la ar). have Em : qr (q_mid (ur_left r1) (ur_right r1)) = qr (q_mid (ur_left r2) (ur_right r2)) by rewrite !qr_mid El Er.
have [r1' E1 [R1' [P1 X1]]] := check_ok (q_mid (ur_left r1) (ur_right r1)) R1.
have [r2' E2 [R2' [P2 X2]]] := check_ok (q_mid (ur_left r2) (ur_right r2)) R2.
exists r1', r2'. split=> //. rewrite -qr_mid in m1 m2.
have m3 : qr (ur_left r2) < qr (q_mid (ur_left r2) (ur_right r2)) by rewrite -El -Em.
have m4 : qr (q_mid (ur_left r2) (ur_right r2)) < qr (ur_right r2) by rewrite -Er -Em.
case: X1 => [[_ /= [X|X|[X _]]]|[_ _ _ _ X1]]; first by [move: (lt_trans X m1); rewrite ltxx]; first by [move: (lt_trans X m2); rewrite ltxx]; first by [move: la; rewrite X ltxx].
case: X2 => [[_ /= [X|X|[X _]]]|[_ _ _ _ X2]]; first by [move: (lt_trans X m3); rewrite ltxx]; first by [move: (lt_trans X m4); rewrite ltxx]; first by [move: lb; rewrite X ltxx].
rewrite -Em in X2.
case: X1 => [[Ea Q1]|[Ea Q1]|[Ea Q1]]; case: X2 => [[Eb Q2]|[Eb Q2]|[Eb Q2]]; rewrite !same_ok /post /bad Q1 Q2 /= -Em -?El -?Er.
- by case: ab; rewrite Ea Eb.
- right. rewrite eq_sym (lt_eqF m1). split=> //. right. split; first by rewrite Ea. by left.
- right. rewrite (lt_eqF m2) andbF. split=> //. left. split; first by rewrite Ea. exact: lexx.
- right. rewrite (lt_eqF m1). split=> //. left. split; first by rewrite Eb. exact: ltW.
- left. rewrite !eqxx qr_mid half_1. by [].
- right. rewrite (lt_eqF m1). split=> //. left. split; first exact: lt_trans Ea Eb. exact: ltW.
- right. rewrite (gt_eqF m2) andbF. split=> //. right. split; first by rewrite Eb. right. by split.
- right. rewrite eq_sym (lt_eqF m1). split=> //. right. split; first exact: lt_trans Eb Ea. by left.
- left. rewrite !eqxx qr_mid half_2. by [].
Qed.
Lemma loop_total (arch : forall x : R, exists n, x < 2%:R ^+ n) n r1 r2 a b : rep r1 a -> rep r2 b -> a <> b -> qr (ur_right r1) - qr (ur_left r1) < 2%:R ^+ n * `|a - b| ->
  forall fuel, (n < fuel)%N -> exists res, comp_loop fuel r1 r2 = Ok res.
Proof.
elim: n r1 r2 => [|n IH] r1 r2 R1 R2 ab W [|f] // L /=; case S: (same_interval r1 r2); try by eexists.
- exfalso. move: S W. rewrite same_ok expr0 mul1r => /andP [/eqP El /eqP Er].
  have X1 : qr (ur_left r1) <= a /\ a <= qr (ur_right r1) by case: (R1) => _ [[-> ->]|[la ar _]]; split=> //; exact: ltW.
  have X2 : qr (ur_left r1) <= b /\ b <= qr (ur_right r1) by rewrite El Er; case: (R2) => _ [[-> ->]|[la ar _]]; split=> //; exact: ltW.
  rewrite ltNge ler_norml opprB. case: X1 X2 => la ar [lb br].
  have -> : qr (ur_left r1) - qr (ur_right r1) <= a - b by apply: ler_sub. by rewrite (ler_sub ar lb).
- have [s1 [s2 [-> -> T1 T2 X]]] /= := loop_step R1 R2 ab S. case: X => [[X Ew]|[X _]].
  + apply: IH => //. rewrite Ew. exact: half_width.
  + case: f L => // f _ /=. rewrite (negbTE X). by eexists.
Qed.
Lemma loop_ok fuel r1 r2 r1' r2' a b : rep r1 a -> rep r2 b -> a <> b -> (same_interval r1 r2 \/ post r1 r2 a b) -> comp_loop fuel r1 r2 = Ok (r1', r2') ->
  [/\ rep r1' a, rep r2' b & post r1' r2' a b].
Proof.
elim: fuel r1 r2 => [|f IH] r1 r2 R1 R2 ab H //=. case S: (same_interval r1 r2).
- have [s1 [s2 [-> -> T1 T2 X]]] /= := loop_step R1 R2 ab S. apply: IH => //. case: X => [[X _]|[_ X]]; [by left|by right].
- move=> [<- <-]. split=> //. case: H => //. by rewrite S.
Qed.

(** ** the comparison *)
Definition strict (r : uroot) (a : R) : Prop := qr (ur_left r) < a /\ a < qr (ur_right r).
Lemma rep_strict r a : rep r a -> qqc_eqb (ur_left r) (ur_right r) = false -> strict r a.
Proof. rewrite (qr_eqb R) => -[_ [[H1 H2]|[la ar _]]] H //. by move: H; rewrite H1 H2 eqxx. Qed.
Definition refine (r1 r2 : uroot) : outcome (uroot * uroot) :=
  if same_interval r1 r2 then Ok (r1, r2)
  else (Prelude.obind (uroot_check r1 (ur_left r2)) (fun r1 => Prelude.obind (uroot_check r1 (ur_right r2)) (fun r1 => Prelude.obind (uroot_check r2 (ur_right r1)) (fun r2 => Ok (r1, r2))))).
Definition refined (s1 s2 : uroot) (a b : R) : Prop :=
  (same_interval s1 s2 /\ strict s1 a /\ strict s2 b) \/ (~~ same_interval s1 s2 /\ ((a < b /\ qr (ur_left s1) <= qr (ur_left s2)) \/ (b < a /\ qr (ur_left s2) < qr (ur_left s1)))).
Lemma not_strict r a : strict r a -> qr (ur_left r) = a /\ qr (ur_right r) = a -> False.
Proof. move=> [H _] [E _]. by move: H; rewrite E ltxx. Qed.
Lemma refine_ok r1 r2 a b : rep r1 a -> rep r2 b -> strict r1 a -> strict r2 b -> qr (ur_left r1) <= qr (ur_left r2) -> qr (ur_left r2) <= qr (ur_right r1) ->
  exists s1 s2, [/\ refine r1 r2 = Ok (s1, s2), rep s1 a, rep s2 b & refined s1 s2 a b].
Proof.
move=> R1 R2 T1 T2 L1 L2. rewrite /refine. case S: (same_interval r1 r2); first by exists r1, r2; split=> //; left; rewrite S.
have lb : qr (ur_left r2) < b by case: T2. have br : b < qr (ur_right r2) by case: T2. have lr2 := lt_trans lb br. have ar : a < qr (ur_right r1) by case: T1.
have [u1 -> [U1 [P1 X1]]] /= := check_ok (ur_left r2) R1.
case: X1 => [[_ [X|X|X]]|[_ _ _ _ X1]].
  by move: (lt_le_trans X L1); rewrite ltxx. by move: (lt_le_trans X L2); rewrite ltxx. by case: (not_strict T1 X).
case: X1 => [[Ea Q1]|[Ea Q1]|[Ea Q1]].
- (* a is the left end of r2 *)
  have [v1 -> [V1 [P2 X2]]] /= := check_ok (ur_right r2) U1. have Ev : v1 = u1.
    case: X2 => [[-> //]|[_ X _ _ _]]. by move: X; rewrite Q1 /= => X; move: (le_lt_trans X lr2); rewrite ltxx.
  have [v2 -> [V2 [P3 X3]]] /= := check_ok (ur_right v1) R2. exists v1, v2. split=> //.
  right. rewrite Ev Q1 /= in X3 *. case: X3 => [[Q3 _]|[_ _ _ _ X3]].
    rewrite same_ok Q3 /= eqxx (lt_eqF lr2). split=> //. left. split; [by rewrite Ea|exact: lexx].
  case: X3 => [[Eb _]|[Eb _]|[Eb Q3]]; [by move: lb; rewrite Eb ltxx|by move: (lt_trans lb Eb); rewrite ltxx|].
  rewrite same_ok Q3 /= eqxx (lt_eqF lr2). split=> //. left. split; [by rewrite Ea|exact: lexx].
- (* a is left of r2 *)
  have [v1 -> [V1 [P2 X2]]] /= := check_ok (ur_right r2) U1. have Ev : v1 = u1.
    case: X2 => [[-> //]|[_ X _ _ _]]. by move: X; rewrite Q1 /= => X; move: (le_lt_trans X lr2); rewrite ltxx.
  have [v2 -> [V2 [P3 X3]]] /= := check_ok (ur_right v1) R2. exists v1, v2. split=> //.
  right. rewrite Ev Q1 /= in X3 *. have la : qr (ur_left r1) < a by case: T1. have ll := lt_trans la Ea.
  case: X3 => [[Q3 _]|[_ _ _ _ X3]].
    rewrite same_ok Q3 /= (lt_eqF ll). split=> //. left. split=> //. exact: lt_trans Ea lb.
  case: X3 => [[Eb _]|[Eb _]|[Eb Q3]]; [by move: lb; rewrite Eb ltxx|by move: (lt_trans lb Eb); rewrite ltxx|].
  rewrite same_ok Q3 /= (lt_eqF ll). split=> //. left. split=> //. exact: lt_trans Ea lb.
- (* a is right of the left end of r2 *)
  have [v1 -> [V1 [P2 X2]]] /= := check_ok (ur_right r2) U1. rewrite Q1 /= in X2.
  have [v2 -> [V2 [P3 X3]]] /= := check_ok (ur_right v1) R2. exists v1, v2. split=> //.
  case: X2 => [[Ev X2]|[_ M1 _ _ X2]].
  + (* r2 ends after r1 *)
    have C : qr (ur_right r1) < qr (ur_right r2).
      case: X2 => [X|//|[X _]]; [by move: (lt_trans X lr2); rewrite ltxx|by move: Ea; rewrite X ltxx].
    rewrite Ev /= in X3 *. have lr1 := lt_trans Ea ar.
    case: X3 => [[_ [X|X|X]]|[_ _ _ _ X3]].
      by move: (lt_trans X lr1); rewrite ltxx. by move: (lt_trans X C); rewrite ltxx. by case: (not_strict T2 X).
    rewrite /refined !same_ok. case: X3 => [[Eb ->]|[Eb ->]|[Eb ->]] /=.
    * right. rewrite (lt_eqF lr1) /=. split=> //. left. rewrite Eb. split=> //.
    * left. rewrite !eqxx. by [].
    * right. rewrite (lt_eqF lr1) /=. split=> //. left. split; [exact: lt_trans ar Eb|exact: ltW].
  + rewrite /refined !same_ok.
    case: X2 => [[Ec Ev]|[Ec Ev]|[Ec Ev]]; rewrite Ev /= in X3 *.
    * (* a is the right end of r2 *)
      right. have Q3 : qr (ur_left v2) = qr (ur_left r2).
        case: X3 => [[-> //]|[_ _ _ _ [[Eb _]|[Eb ->]|[Eb _]]]] //=; [by move: br; rewrite Eb ltxx|by move: (lt_trans br Eb); rewrite ltxx].
      rewrite Q3 (gt_eqF lr2). split=> //. right. split=> //. by rewrite Ec.
    * (* a is in r2 *)
      have Q3 : qr (ur_left v2) = qr (ur_left r2) /\ qr (ur_right v2) = qr (ur_right r2).
        case: X3 => [[-> //]|[_ _ _ _ [[Eb _]|[Eb ->]|[Eb _]]]] //=; [by move: br; rewrite Eb ltxx|by move: (lt_trans br Eb); rewrite ltxx].
      left. rewrite /strict /=. case: Q3 => -> ->. by rewrite !eqxx.
    * (* a is right of r2 *)
      have Q3 : v2 = r2.
        case: X3 => [[-> //]|[_ X _ _ _]]. by move: (lt_trans (lt_le_trans Ec (ltW ar)) (le_lt_trans X (lt_trans Ec ar))); rewrite ltNge X.
      rewrite Q3. right. rewrite (gt_eqF lr2). split=> //. right. split=> //. exact: lt_trans br Ec.
Qed.

(** the answer c for the roots a, b with the refined objects u, v *)
Definition answer (c : Z) (u v : uroot) (a b : R) : Prop :=
  [\/ c = 0%CZ /\ a = b, [/\ c = 1%CZ, a <> b & a < b \/ bad u v] | [/\ c = (-1)%CZ, a <> b & b < a \/ bad v u]].
Lemma answer_sym c u v a b : answer c u v a b -> answer (- c)%CZ v u b a.
Proof.
case=> [[-> ->]|[-> N H]|[-> N H]]; first by constructor 1. constructor 3; split=> //; by apply: nesym. constructor 2; split=> //; by apply: nesym.
Qed.
Lemma answer_lt u v a b : a < b -> answer 1 u v a b. Proof. move=> H. constructor 2. split=> //; [|by left]. move=> E. by move: H; rewrite E ltxx. Qed.
Lemma answer_gt u v a b : b < a -> answer (-1)%CZ u v a b. Proof. move=> H. constructor 3. split=> //; [|by left]. move=> E. by move: H; rewrite E ltxx. Qed.

Lemma u_eqb_ok (p q : uz) : u_eqb p q -> p = q.
Proof. elim: p q => [|[e c] p IH] [|[e' c'] q] //= /andP [/andP [/Z.eqb_eq -> /Z.eqb_eq ->] /IH ->]. by []. Qed.

Section Comp.
Variable srt : upz -> upz.
Variable ps : nat -> pmod.
Hypothesis Hps : forall i, Znumtheory.prime (pm (ps i)).

(** the two objects have the same interval *)
Definition tail_comp (fuel : nat) (st : Z) (r1 r2 : uroot) : outcome (Z * uroot * uroot) :=
      if u_eqb (ur_poly r1) (ur_poly r2) then Ok (put_back st 0 r1 r2)
      else
        Prelude.obind (upoly_gcd srt ps fuel (ur_poly r1) (ur_poly r2)) (fun p =>
        Prelude.obind (uroot_in p (ur_left r1) (ur_right r1)) (fun b : bool =>
        if b then Ok (put_back st 0 (Uroot p (ur_left r1) (ur_right r1)) (Uroot p (ur_left r2) (ur_right r2)))
        else
          Prelude.obind (udiv fuel (ur_poly r1) p) (fun p1 =>
          Prelude.obind (udiv fuel (ur_poly r2) p) (fun p2 =>
          Prelude.obind (comp_loop fuel (Uroot p1 (ur_left r1) (ur_right r1)) (Uroot p2 (ur_left r2) (ur_right r2))) (fun '(r1, r2) =>
          if negb (q_ltb (ur_left r2) (ur_left r1)) then Ok (put_back st st r1 r2) else Ok (put_back st (- st)%CZ r1 r2)))))).

Lemma tail_ok fuel st r1 r2 c u v a b : rep r1 a -> rep r2 b -> strict r1 a -> strict r2 b -> same_interval r1 r2 -> tail_comp fuel st r1 r2 = Ok (c, u, v) ->
  exists u' v' c', [/\ (c, u, v) = put_back st (st * c')%CZ u' v', rep u' a, rep v' b & answer c' u' v' a b].
Proof.
move=> R1 R2 T1 T2 S. rewrite /tail_comp. have G1 := proj1 R1. have G2 := proj1 R2. have S' := S. rewrite same_ok in S'. case/andP: S' => /eqP El /eqP Er.
have in2 : qr (ur_left r2) <= a /\ a <= qr (ur_right r2) by rewrite -El -Er; case: T1 => ? ?; split; exact: ltW.
have in1 : qr (ur_left r1) <= b /\ b <= qr (ur_right r1) by rewrite El Er; case: T2 => ? ?; split; exact: ltW.
have U1 : forall x, qr (ur_left r1) <= x -> x <= qr (ur_right r1) -> root (tr (ur_poly r1)) x -> x = a.
  case: (R1) => _ [H|[_ _ U]] //. by case: (not_strict T1 H).
have U2 : forall x, qr (ur_left r2) <= x -> x <= qr (ur_right r2) -> root (tr (ur_poly r2)) x -> x = b.
  case: (R2) => _ [H|[_ _ U]] //. by case: (not_strict T2 H).
have [N1 [Ne1 [D1 [Ra _]]]] := G1. have [N2 [Ne2 [D2 [Rb _]]]] := G2.
case Eq: (u_eqb _ _).
  move=> [E]. exists r1, r2, 0%CZ. rewrite -E Z.mul_0_r. split=> //. constructor 1. split=> //. have Ep := u_eqb_ok Eq.
  apply: (U2 a); try by case: in2. by rewrite -Ep.
case Eg: (upoly_gcd _ _ _ _ _) => [p| | |] //=.
have D1' : (UGcd.udeg (ur_poly r1) < maxdeg)%CZ by []. have D2' : (UGcd.udeg (ur_poly r2) < maxdeg)%CZ by [].
have [Np Gp] := upoly_gcd_ok srt ps fuel (ur_poly r1) (ur_poly r2) p Hps N2 N1 D2' D1' Eg.
have [Dv2 [Dv1 _]] := Gp. have [W1 EW1] := tr_dvd R Dv1. have [W2 EW2] := tr_dvd R Dv2.
have pa : root (tr p) a <-> a = b.
  split=> [Rp|Eab]; last by apply: (gcd_root (p := ur_poly r2) (q := ur_poly r1)) => //; rewrite Eab.
  apply: (U2 a); try by case: in2. by rewrite EW2 rootM Rp orbT.
rewrite (uroot_in_ok G1 (proj1 T1) (proj2 T1) (proj2 R1) Np EW1) /=. case Rp: (root (tr p) a).
- have Eab := proj1 pa Rp. move=> [E]. exists (Uroot p (ur_left r1) (ur_right r1)), (Uroot p (ur_left r2) (ur_right r2)), 0%CZ.
  rewrite -E Z.mul_0_r. split=> //; last by constructor 1.
  + split=> /=; [exact: good_div G1 Np EW1 Rp|exact: holds_div EW1 (proj2 R1)].
  + split=> /=; last exact: holds_div EW2 (proj2 R2). apply: (good_div G2 Np EW2). by rewrite -Eab.
- have Nab : a <> b by move/(proj2 pa); rewrite Rp.
  have Pne : p <> [::]. { move=> Ep. have := tr_neq0 R N1 Ne1. by rewrite EW1 Ep tr_nil mulr0 eqxx. }
  case E1: (udiv fuel (ur_poly r1) p) => [p1| | |] //=. case E2: (udiv fuel (ur_poly r2) p) => [p2| | |] //=.
  have [Np1 Q1] := udiv_ok fuel (ur_poly r1) p p1 N1 Np Pne Dv1 E1. have [Np2 Q2] := udiv_ok fuel (ur_poly r2) p p2 N2 Np Pne Dv2 E2.
  have TM : forall P q : uz, req Zc (MonoStruct.graw usm P) (rmul Zc (MonoStruct.graw usm q) (MonoStruct.graw usm p)) -> tr P = tr p * tr q.
    move=> P q H. by rewrite /UspBase.tr (toP_mul H) rmorphM mulrC.
  have Rp' : ~~ root (tr p) b.
    apply/negP => Rp'. case: Nab. symmetry. apply: (U1 b); try by case: in1. by rewrite EW1 rootM Rp' orbT.
  have K1 : rep (Uroot p1 (ur_left r1) (ur_right r1)) a.
    split=> /=; last exact: holds_div (TM _ _ Q1) (proj2 R1). apply: (good_div G1 Np1 (TM _ _ Q1)). move: Ra. by rewrite (TM _ _ Q1) rootM Rp.
  have K2 : rep (Uroot p2 (ur_left r2) (ur_right r2)) b.
    split=> /=; last exact: holds_div (TM _ _ Q2) (proj2 R2). apply: (good_div G2 Np2 (TM _ _ Q2)). move: Rb. by rewrite (TM _ _ Q2) rootM (negbTE Rp').
  case EL: (comp_loop fuel _ _) => [[s1 s2]| | |] //=.
  have [L1 L2 P] := loop_ok K1 K2 Nab (or_introl (S : same_interval (Uroot p1 (ur_left r1) (ur_right r1)) (Uroot p2 (ur_left r2) (ur_right r2)))) EL.
  rewrite (qr_ltb R). case: ltP => C /= [E].
  + exists s1, s2, (-1)%CZ. split=> //; first by rewrite -E; congr (put_back _ _ _ _); lia.
    case: P => [[_ H]|[H _]]; [by move: (lt_le_trans C H); rewrite ltxx|exact: answer_gt].
  + exists s1, s2, 1%CZ. split=> //; first by rewrite -E; congr (put_back _ _ _ _); lia.
    case: P => [[H _]|[H [X|X]]]; [exact: answer_lt|by move: (lt_le_trans X C); rewrite ltxx|]. constructor 2. split=> //. by right.
Qed.

Definition body (fuel : nat) (st : Z) (r1 r2 : uroot) : outcome (Z * uroot * uroot) :=
    if q_ltb (ur_right r1) (ur_left r2) then Ok (put_back st st r1 r2)
    else
      Prelude.obind (refine r1 r2) (fun '(r1, r2) =>
      let '(st, r1, r2) := order_roots st r1 r2 in
      if negb (same_interval r1 r2) then Ok (put_back st st r1 r2)
      else tail_comp fuel st r1 r2).
Lemma body_ok fuel st r1 r2 c u v a b : (st = 1 \/ st = -1)%CZ -> rep r1 a -> rep r2 b -> strict r1 a -> strict r2 b -> qr (ur_left r1) <= qr (ur_left r2) ->
  body fuel st r1 r2 = Ok (c, u, v) ->
  exists u' v' c', [/\ (c, u, v) = put_back st (st * c')%CZ u' v', rep u' a, rep v' b & answer c' u' v' a b].
Proof.
move=> Hst R1 R2 T1 T2 L. rewrite /body (qr_ltb R). case: ltP => C.
  move=> [<-]. exists r1, r2, 1%CZ. split=> //; first by rewrite Z.mul_1_r. apply: answer_lt. exact: lt_trans (proj2 T1) (lt_trans C (proj1 T2)).
have [s1 [s2 [-> S1 S2 H]]] /= := refine_ok R1 R2 T1 T2 L C. rewrite /order_roots (qr_ltb R).
case: H => [[S [X1 X2]]|[S H]].
- have -> : (qr (ur_left s2) < qr (ur_left s1)) = false by move: S; rewrite same_ok => /andP [/eqP -> _]; rewrite ltxx. rewrite S /=. exact: tail_ok.
- case: H => [[H Ls]|[H Ls]].
  + rewrite ltNge Ls /= S => -[<-]. exists s1, s2, 1%CZ. split=> //; [by rewrite Z.mul_1_r|exact: answer_lt].
  + rewrite Ls. have -> : same_interval s2 s1 = same_interval s1 s2 by rewrite !same_ok; congr (_ && _); rewrite eq_sym. rewrite S => -[<-].
    exists s1, s2, (-1)%CZ. split=> //; [|exact: answer_gt]. by case: Hst => ->.
Qed.
Theorem comp_ok fuel r1 r2 c r1' r2' a b : rep r1 a -> rep r2 b -> comp_fin srt ps fuel r1 r2 = Ok (c, r1', r2') ->
  [/\ rep r1' a, rep r2' b & answer c r1' r2' a b].
Proof.
move=> R1 R2. rewrite /comp_fin. case Q1: (qqc_eqb (ur_left r1) (ur_right r1)).
  have Ea : qr (ur_left r1) = a by case: (R1) => _ [[-> //]|[la ar _]]; move: Q1; rewrite (qr_eqb R) (lt_eqF (lt_trans la ar)).
  have [d [s [-> [Rs H]]]] /= := comp_q_ok (ur_left r1) R2. move=> [<- <- <-]. rewrite Ea in H. split=> //.
  case: H => [[-> H]|[-> H]|[-> H]]; [exact: answer_gt|by constructor 1|exact: answer_lt].
case Q2: (qqc_eqb (ur_left r2) (ur_right r2)).
  have Eb : qr (ur_left r2) = b by case: (R2) => _ [[-> //]|[la ar _]]; move: Q2; rewrite (qr_eqb R) (lt_eqF (lt_trans la ar)).
  have [d [s [-> [Rs H]]]] /= := comp_q_ok (ur_left r2) R1. move=> [<- <- <-]. rewrite Eb in H. split=> //.
  case: H => [[-> H]|[-> H]|[-> H]]; [exact: answer_lt|by constructor 1|exact: answer_gt].
have T1 := rep_strict R1 Q1. have T2 := rep_strict R2 Q2.
rewrite /order_roots (qr_ltb R). case: ltP => C.
- move=> H. have [u' [v' [c' [E A1 A2 A3]]]] := body_ok (st := (-1)%CZ) (or_intror erefl) R2 R1 T2 T1 (ltW C) H.
  move: E. rewrite /put_back /= => -[-> -> ->]. split=> //. have := answer_sym A3. by case: (c') {A3}.
- move=> H. have [u' [v' [c' [E A1 A2 A3]]]] := body_ok (st := 1%CZ) (or_introl erefl) R1 R2 T1 T2 C H.
  move: E. rewrite /put_back /= => -[-> -> ->]. split=> //. by case: c' A3.
Qed.

(** the calls of polynomial_GCD and of the exact division return *)
Definition returns (fuel : nat) (p1 p2 : uz) : Prop :=
  exists g q1 q2, [/\ upoly_gcd srt ps fuel p1 p2 = Ok g, udiv fuel p1 g = Ok q1 & udiv fuel p2 g = Ok q2].
Lemma check_poly r m r' : uroot_check r m = Ok r' -> ur_poly r' = ur_poly r.
Proof.
rewrite /uroot_check. case: ifP => _; first by move=> [<-]. case: ifP => _; first by move=> [<-]. case: ifP => _.
  case: ifP => _; first by case: (r_to_ab _ _ _) => [p| | |] //=; case: ifP => _ [<-]. by case: ifP => _ [<-].
by case: ifP => _ [<-].
Qed.
Lemma refine_poly r1 r2 s1 s2 : refine r1 r2 = Ok (s1, s2) -> ur_poly s1 = ur_poly r1 /\ ur_poly s2 = ur_poly r2.
Proof.
rewrite /refine. case: ifP => _; first by move=> [<- <-].
case E1: (uroot_check r1 _) => [u1| | |] //=. case E2: (uroot_check u1 _) => [u2| | |] //=. case E3: (uroot_check r2 _) => [u3| | |] //= -[<- <-].
by rewrite (check_poly E2) (check_poly E1) (check_poly E3).
Qed.
(** width of the common interval *)
Lemma body_total (arch : forall x : R, exists n, x < 2%:R ^+ n) st r1 r2 a b : rep r1 a -> rep r2 b -> strict r1 a -> strict r2 b -> qr (ur_left r1) <= qr (ur_left r2) ->
  exists N, forall fuel, (N <= fuel)%N -> returns fuel (ur_poly r1) (ur_poly r2) -> exists res, body fuel st r1 r2 = Ok res.
Proof.
move=> R1 R2 T1 T2 L. rewrite /body (qr_ltb R). case: ltP => C; first by exists 0%N => *; eexists.
have [s1 [s2 [Es S1 S2 H]]] /= := refine_ok R1 R2 T1 T2 L C. rewrite /order_roots. have [P1 P2] := refine_poly Es. 
case: H => [[S [X1 X2]]|[S H]]; last first.
  exists 0%N => fuel _ _. rewrite Es /= (qr_ltb R). case: ltP => _; last by rewrite S; eexists.
  have -> : same_interval s2 s1 = same_interval s1 s2 by rewrite !same_ok; congr (_ && _); rewrite eq_sym. rewrite S. by eexists.
case: (eqVneq a b) => [Eab|Nab].
- exists 0%N => fuel _ [g [q1 [q2 [Eg _ _]]]]. rewrite Es /= (qr_ltb R).
  have -> : (qr (ur_left s2) < qr (ur_left s1)) = false by move: S; rewrite same_ok => /andP [/eqP -> _]; rewrite ltxx. rewrite S /= /tail_comp.
  case: ifP => _; first by eexists. rewrite P1 P2 Eg /=. have G1 := proj1 S1. have [N1 [Ne1 [D1 [Ra _]]]] := G1. have [N2 [Ne2 [D2 [Rb _]]]] := proj1 S2.
  rewrite P1 in G1 N1 Ne1 D1 Ra. rewrite P2 in N2 Ne2 D2 Rb.
  have D1' : (UGcd.udeg (ur_poly r1) < maxdeg)%CZ by []. have D2' : (UGcd.udeg (ur_poly r2) < maxdeg)%CZ by [].
  have [Np Gp] := upoly_gcd_ok srt ps fuel (ur_poly r1) (ur_poly r2) g Hps N2 N1 D2' D1' Eg.
  have [Dv2 [Dv1 _]] := Gp. have [W1 EW1] := tr_dvd R Dv1.
  have HH := proj2 S1. rewrite P1 in HH. rewrite (uroot_in_ok G1 (proj1 X1) (proj2 X1) HH Np EW1) /=.
  have -> : root (tr g) a by apply: (gcd_root (p := ur_poly r2) (q := ur_poly r1)) => //; rewrite Eab. by eexists.
- have d0 : 0 < `|a - b| by rewrite normr_gt0 subr_eq0. have [n W] := scale_arch arch (qr (ur_right s1) - qr (ur_left s1)) d0.
  exists n.+1 => fuel Lf [g [q1 [q2 [Eg Eq1 Eq2]]]]. rewrite Es /= (qr_ltb R).
  have -> : (qr (ur_left s2) < qr (ur_left s1)) = false by move: S; rewrite same_ok => /andP [/eqP -> _]; rewrite ltxx. rewrite S /=.
  rewrite /tail_comp. case: ifP => _; first by eexists. rewrite P1 P2 Eg /=.
  have G1 := proj1 S1. have G2 := proj1 S2. have [N1 [Ne1 [D1 [Ra _]]]] := G1. have [N2 [Ne2 [D2 [Rb _]]]] := G2.
  rewrite P1 in G1 N1 Ne1 D1 Ra. rewrite P2 in G2 N2 Ne2 D2 Rb.
  have D1' : (UGcd.udeg (ur_poly r1) < maxdeg)%CZ by []. have D2' : (UGcd.udeg (ur_poly r2) < maxdeg)%CZ by [].
  have [Np Gp] := upoly_gcd_ok srt ps fuel (ur_poly r1) (ur_poly r2) g Hps N2 N1 D2' D1' Eg.
  have [Dv2 [Dv1 _]] := Gp. have [W1 EW1] := tr_dvd R Dv1. have [W2 EW2] := tr_dvd R Dv2.
  have H1 := proj2 S1. rewrite P1 in H1. have H2 := proj2 S2. rewrite P2 in H2.
  rewrite (uroot_in_ok G1 (proj1 X1) (proj2 X1) H1 Np EW1) /=. case Rp: (root (tr g) a); first by eexists.
  have Pne : g <> [::]. { move=> Ep. have := tr_neq0 R N1 Ne1. by rewrite EW1 Ep tr_nil mulr0 eqxx. }
  rewrite Eq1 Eq2 /=.
  have [Np1 Q1] := udiv_ok fuel (ur_poly r1) g q1 N1 Np Pne Dv1 Eq1. have [Np2 Q2] := udiv_ok fuel (ur_poly r2) g q2 N2 Np Pne Dv2 Eq2.
  have TM : forall P q : uz, req Zc (MonoStruct.graw usm P) (rmul Zc (MonoStruct.graw usm q) (MonoStruct.graw usm g)) -> tr P = tr g * tr q.
    move=> P q Hq. by rewrite /UspBase.tr (toP_mul Hq) rmorphM mulrC.
  have S' := S. rewrite same_ok in S'. case/andP: S' => /eqP El /eqP Er.
  have Rp' : ~~ root (tr g) b.
    apply/negP => Rp'. case: H1 => [[Z1 _]|[_ _ U]]; first by case: X1; rewrite Z1 ltxx. case/eqP: Nab. symmetry. case: X2 => lb br. apply: U; rewrite ?El ?Er ?ltW //. by rewrite EW1 rootM Rp' orbT.
  have K1 : rep (Uroot q1 (ur_left s1) (ur_right s1)) a.
    split=> /=; last exact: holds_div (TM _ _ Q1) H1. apply: (good_div G1 Np1 (TM _ _ Q1)). move: Ra. by rewrite (TM _ _ Q1) rootM Rp.
  have K2 : rep (Uroot q2 (ur_left s2) (ur_right s2)) b.
    split=> /=; last exact: holds_div (TM _ _ Q2) H2. apply: (good_div G2 Np2 (TM _ _ Q2)). move: Rb. by rewrite (TM _ _ Q2) rootM (negbTE Rp').
  have [[u v] ->] /= := loop_total arch K1 K2 (elimN eqP Nab) W Lf. case: ifP => _; by eexists.
Qed.
Theorem comp_total (arch : forall x : R, exists n, x < 2%:R ^+ n) r1 r2 a b : rep r1 a -> rep r2 b ->
  exists N, forall fuel, (N <= fuel)%N -> returns fuel (ur_poly r1) (ur_poly r2) -> returns fuel (ur_poly r2) (ur_poly r1) -> exists res, comp_fin srt ps fuel r1 r2 = Ok res.
Proof.
move=> R1 R2. rewrite /comp_fin. case Q1: (qqc_eqb (ur_left r1) (ur_right r1)).
  have [d [s [-> _]]] /= := comp_q_ok (ur_left r1) R2. exists 0%N => *. by eexists.
case Q2: (qqc_eqb (ur_left r2) (ur_right r2)).
  have [d [s [-> _]]] /= := comp_q_ok (ur_left r2) R1. exists 0%N => *. by eexists.
have T1 := rep_strict R1 Q1. have T2 := rep_strict R2 Q2. rewrite /order_roots (qr_ltb R). case: ltP => C.
- have [N H] := body_total arch (-1)%CZ R2 R1 T2 T1 (ltW C). exists N => fuel Lf _ H2. exact: (H fuel Lf H2).
- have [N H] := body_total arch 1%CZ R1 R2 T1 T2 C. exists N => fuel Lf H1 _. exact: (H fuel Lf H1).
Qed.
End Comp.
End R.
