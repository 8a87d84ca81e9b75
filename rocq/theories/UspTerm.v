(** * Termination of the root isolation (realroot.cc 91-217, 436-571). *)
From Verif Require Import Prelude Coef Spec SpecProofs GcdPoly GcdProofs MonoStruct MonoStructProofs OrderSpec PairVec PairVecProofs Heap Poly
  PolyMulProofs PolyOps ConvertProofs QQ NumSpec QQProofs UGcdBase Uspensky RootBound.
From mathcomp Require Import all_ssreflect all_algebra ssrZ polyrcf.
From Verif Require Import UspMath UspBase UspTrans UspIso UspList UspVec UspBound UspTop.
Import Order.TTheory GRing.Theory Num.Theory.
Set Implicit Arguments.
Unset Strict Implicit.
Local Open Scope ring_scope.
Delimit Scope Z_scope with CZ.
Local Notation unorm := (normal uok (m_gt uniS) Zc).

(** ** More fuel does not change a result *)
Lemma shrink_mono f f' G B E lb rb r : (f <= f')%N -> shrink f G B E lb rb = Ok r -> shrink f' G B E lb rb = Ok r.
Proof.
elim: f f' G B E lb rb r => [|f IH] [|f'] G B E lb rb r //= L.
case: (to_inf G) => [g| | |] //=. case: ifP => // _. case: ifP => // _. case: ifP => // _.
case E1: (shrink f _ _ _ _ _) => [[[b1 B1] m1]| | |] //=. rewrite (IH _ _ _ _ _ _ _ L E1) /=. case: b1 {E1} => //.
case: (half_right G) => [Gr| | |] //=. case E2: (shrink f _ _ _ _ _) => [[[b2 B2] m2]| | |] //=. by rewrite (IH _ _ _ _ _ _ _ L E2).
Qed.
Lemma sub_mono f f' G l B E r : (f <= f')%N -> subuspensky f G l B E = Ok r -> subuspensky f' G l B E = Ok r.
Proof.
elim: f f' G l B E r => [|f IH] [|f'] G l B E r //= L.
case: (to_inf G) => [g| | |] //=. case: ifP => // _. case: ifP => _.
- case E1: (shrink f _ _ _ _ _) => [[[b1 B1] m1]| | |] //=. by rewrite (shrink_mono (L : (f <= f')%N) E1).
- case E1: (subuspensky f _ _ _ _) => [l1| | |] //=. rewrite (IH _ _ _ _ _ _ L E1) /=. case: (half_right G) => [Gr| | |] //=. exact: IH.
Qed.
Lemma subv_mono f f' G l B E r : (f <= f')%N -> subuspensky_v f G l B E = Ok r -> subuspensky_v f' G l B E = Ok r.
Proof.
elim: f f' G l B E r => [|f IH] [|f'] G l B E r //= L.
case: (mapM_inf G) => [vs| | |] //=. case: ifP => // _. case: ifP => _.
- case: nth_error => // -[g i]. case E1: (shrink f _ _ _ _ _) => [[[b1 B1] m1]| | |] //=. by rewrite (shrink_mono (L : (f <= f')%N) E1).
- case: (mid_loop _ _ _) => lm vs'. case E1: (subuspensky_v f _ _ _ _) => [l1| | |] //=. rewrite (IH _ _ _ _ _ _ L E1) /=. case: (mapM_right _) => [Gr| | |] //=. exact: IH.
Qed.
Lemma usp_mono f f' G r : (f <= f')%N -> uspensky f G = Ok r -> uspensky f' G = Ok r.
Proof.
move=> L. rewrite /uspensky. case: ifP => // _.
case E1: (subuspensky f _ _ _ _) => [l1| | |] //=. rewrite (sub_mono L E1) /=.
case E2: (subuspensky f _ _ _ _) => [l2| | |] //=. by rewrite (sub_mono L E2).
Qed.
Lemma uspv_mono f f' G r : (f <= f')%N -> uspensky_v f G = Ok r -> uspensky_v f' G = Ok r.
Proof.
move=> L. rewrite /uspensky_v. case: (non_numbers 0 G) => // gi G0.
case E1: (subuspensky_v f _ _ _ _) => [l1| | |] //=. rewrite (subv_mono L E1) /=.
case E2: (subuspensky_v f _ _ _ _) => [l2| | |] //=. by rewrite (subv_mono L E2).
Qed.

Section R.
Variable R : rcfType.
Hypothesis arch : forall x : R, exists n, x < 2%:R ^+ n.
Lemma scale_arch (w d : R) : 0 < d -> exists n, w < 2%:R ^+ n * d.
Proof. move=> d0. have [n H] := arch (w / d). exists n. by rewrite -ltr_pdivr_mulr. Qed.
Lemma half_width (w d : R) n : w < 2%:R ^+ n.+1 * d -> w / 2%:R < 2%:R ^+ n * d.
Proof. rewrite exprS -mulrA => H. rewrite ltr_pdivr_mulr ?ltr0n // mulrC. by []. Qed.

Lemma shrink_total n F G B E (lb rb : bool) r d : seen (R := R) F G B E -> none1 R G -> (lb -> F.[qr R B] != 0) -> (rb -> F.[qr R E] != 0) ->
  qr R B < r -> r < qr R E -> F.[r] = 0 -> 0 < d -> d <= 1 -> (lb || (d <= r - qr R B)) -> (rb || (d <= qr R E - r)) ->
  qr R E - qr R B < 2%:R ^+ n * d -> forall fuel, (n.+1 < fuel)%N -> exists res, shrink fuel G B E lb rb = Ok res.
Proof.
elim: n G B E lb rb => [|n IH] G B E lb rb S H1 Hl Hr r1 r2 r0 d0 d1 dl dr W [|fuel] // L; rewrite /=.
- have [g -> [V0 V1]] /= := to_inf_v R (proj1 S). case: ifP => _; first by eexists.
  rewrite expr0 mul1r in W.
  have Tl : lb. { case: lb Hl dl => // _ /= dl. have X : r - qr R B < qr R E - qr R B by rewrite ltr_add2r. by move: (le_lt_trans dl (lt_trans X W)); rewrite ltxx. }
  have Tr : rb. { case: rb Hr dr => // _ /= dr. have X : qr R E - r < qr R E - qr R B by rewrite ltr_add2l ltr_opp2. by move: (le_lt_trans dr (lt_trans X W)); rewrite ltxx. }
  rewrite (qr_ltb R) qr_sub qr_int zr_1 (lt_le_trans W d1) Tl Tr /=. by eexists.
- have [g -> [V0 V1]] /= := to_inf_v R (proj1 S). case: ifP => _; first by eexists. case: ifP => _; first by eexists.
  have Lw : qr R B < qr R E := proj1 (proj2 S).
  have Em : qr R (q_mid E B) = (qr R B + qr R E) / 2%:R by rewrite qr_mid addrC.
  have [m1 m2] := mid_in Lw. rewrite -Em in m1 m2.
  rewrite (seen_half S Em). case: ifP => R0; first by eexists.
  have [SL oneL] := seen_left S Em. have [Gr EGr [SR oneR]] := seen_right S Em.
  have Mn : F.[qr R (q_mid E B)] != 0 by rewrite R0.
  have Wh := half_width W.
  case: (ltgtP r (qr R (q_mid E B))) => Lr; last by move: R0; rewrite -Lr r0 eqxx.
  + have Wl : qr R (q_mid E B) - qr R B < 2%:R ^+ n * d by rewrite Em half_1.
    have [[[b1 B1] m1'] ES] := IH _ _ _ lb true SL (oneL H1) Hl (fun _ : is_true true => Mn) r1 Lr r0 d0 d1 dl isT Wl fuel L.
    have [Eb _] := shrink_ok SL (oneL H1) Hl (fun _ => Mn) r1 Lr r0 ES. rewrite ES /= Eb. by eexists.
  + have Eb : exists B1, shrink fuel (half_left G) B (q_mid E B) lb true = Ok (false, B1, q_mid E B).
      case: fuel L => [|fuel] //= L. have [gl -> [W0 W1]] /= := to_inf_v R (proj1 SL).
      case: (Nat.eqb_spec (coeffsignchanges gl) 0) => D0; first by eexists.
      exfalso. have [x [x1 x2 X]] := seen_exists SL (oneL H1) (fun Q => D0 (proj2 W0 Q)).
      have E1 := seen_uniq S H1 x1 (lt_trans x2 m2) r1 r2 X r0. by move: (lt_trans x2 Lr); rewrite E1 ltxx.
    case: Eb => B1 -> /=. rewrite EGr /=.
    have Wr : qr R E - qr R (q_mid E B) < 2%:R ^+ n * d by rewrite Em half_2.
    have [[[b2 B2] m2'] ->] := IH _ _ _ true rb SR (oneR H1) (fun _ : is_true true => Mn) Hr Lr r2 r0 d0 d1 isT dr Wr fuel L. by eexists.
Qed.
Lemma shrink_total0 F G B E : seen (R := R) F G B E -> none1 R G -> ~ nsame R G ->
  exists n, forall fuel, (n <= fuel)%N -> exists res, shrink fuel G B E false false = Ok res.
Proof.
move=> S H1 NS. have [r [r1 r2 r0]] := seen_exists S H1 NS.
pose d := Num.min 1 (Num.min (r - qr R B) (qr R E - r)).
have d0 : 0 < d by rewrite /d !lt_minr ltr01 !subr_gt0 r1 r2.
have [n W] := scale_arch (qr R E - qr R B) d0. exists n.+2 => fuel L.
apply: (shrink_total (n := n) S H1 _ _ r1 r2 r0 d0) => //; by rewrite /d !le_minl lexx ?orbT.
Qed.

(** ** Narrow intervals *)
Lemma seen_dg F G B E : seen (R := R) F G B E -> size F = (dg G).+1.
Proof.
move=> [[N [Ne _]] [L [s s0 ES]]]. rewrite -(tr_size R N Ne) ES size_aff // gt_eqF //. by rewrite subr_gt0.
Qed.
Lemma small_seen (F : {poly R}) (M d : R) : 0 < d -> exists2 e, 0 < e & forall G B E, seen F G B E -> `|qr R B| <= M -> qr R E - qr R B <= e ->
  (d <= `|F.[qr R B]| -> nsame R G) /\ (d <= `|F^`().[qr R B]| -> none1 R G).
Proof.
move=> d0. have [e1 e1p H1] := small_same (size F).-1 F M d0.
have Sz2 : (size F <= (size F).-2.+2)%N by case: (size F) => [|[|k]].
have [e2 e2p H2] := small_one M Sz2 d0.
exists (Num.min e1 e2); first by rewrite lt_minr e1p. move=> G B E S Hb. rewrite le_minr => /andP [w1 w2].
have Sz := seen_dg S. case: (S) => [U [L [s s0 ES]]]. have w0 : 0 < qr R E - qr R B by rewrite subr_gt0.
have Ed : (size F).-1 = dg G by rewrite Sz. split=> Hd.
- rewrite /nsame ES -Ed. exact: H1.
- rewrite /none1 ES. case Ek: (dg G) => [|k].
  + exfalso. move: Hd. have /eqP/size_poly1P [c _ ->] : size F = 1%N by rewrite Sz Ek. by rewrite derivC hornerC normr0 leNgt d0.
  + have -> : k = (size F).-2 by rewrite Sz Ek. exact: H2.
Qed.
Lemma in_bound (M a : R) : 0 <= a -> a <= M -> `|a| <= M. Proof. by move=> a0 aM; rewrite ger0_norm. Qed.
Lemma halves (B E : qqc) (e : R) n : qr R B < qr R E -> qr R E - qr R B < 2%:R ^+ n.+1 * e ->
  [/\ qr R B < qr R (q_mid B E), qr R (q_mid B E) < qr R E, qr R (q_mid B E) - qr R B < 2%:R ^+ n * e & qr R E - qr R (q_mid B E) < 2%:R ^+ n * e].
Proof. move=> L W. have [m1 m2] := qr_mid_in L. have Wh := half_width W. split=> //; by rewrite qr_mid ?half_1 ?half_2. Qed.

(** ** One polynomial *)
Lemma sub_total (F : {poly R}) (M : R) : coprimep F F^`() ->
  forall G B E, seen F G B E -> 0 <= qr R B -> qr R E <= M -> exists N, forall fuel, (N <= fuel)%N -> forall l, exists res, subuspensky fuel G l B E = Ok res.
Proof.
move=> Hc. have [d d0 Hd] := coprime_bound M Hc. have [e e0 He] := small_seen F M d0.
have main : forall n G B E, seen F G B E -> 0 <= qr R B -> qr R E <= M -> qr R E - qr R B < 2%:R ^+ n * e -> exists N, forall fuel, (N <= fuel)%N -> forall l, exists res, subuspensky fuel G l B E = Ok res.
  have one_case : forall G B E, seen F G B E -> none1 R G -> exists N, forall fuel, (N <= fuel)%N -> forall l, exists res, subuspensky fuel G l B E = Ok res.
    move=> G B E S H1. have [g Eg [V0 V1]] := to_inf_v R (proj1 S). case: (Nat.eqb_spec (coeffsignchanges g) 0) => C0.
      exists 1%N. move=> [|fuel] //= _ l. rewrite Eg /= C0 /=. by eexists.
    have [N HN] := shrink_total0 S H1 (fun Q => C0 (proj2 V0 Q)). exists N.+1. move=> [|fuel] //= L l. rewrite Eg /=.
    have -> : coeffsignchanges g = 1%N by move/V1: H1; lia.
    have [[[b B1] E1] ->] := HN fuel L. by eexists.
  elim=> [|n IH] G B E S B0 EM W.
  - have Lw : qr R B < qr R E := proj1 (proj2 S). have Hb := in_bound B0 (le_trans (ltW Lw) EM).
    rewrite expr0 mul1r in W. have [H0 H1] := He _ _ _ S Hb (ltW W).
    case: (Hd _ Hb) => [/H0 Q|/H1 Q]; last exact: (one_case _ _ _ S Q).
    have [g Eg [V0 V1]] := to_inf_v R (proj1 S). exists 1%N. move=> [|fuel] //= _ l. rewrite Eg /= (proj2 V0 Q) /=. by eexists.
  - have Lw : qr R B < qr R E := proj1 (proj2 S). have Em : qr R (q_mid B E) = (qr R B + qr R E) / 2%:R by rewrite qr_mid.
    have [g Eg [V0 V1]] := to_inf_v R (proj1 S).
    case: (leqP (coeffsignchanges g) 1) => C1; first by apply: (one_case _ _ _ S); apply/V1.
    have [m1 m2 W1 W2] := halves Lw W.
    have [SL _] := seen_left S Em. have [Gr EGr [SR _]] := seen_right S Em.
    have [N1 HN1] := IH _ _ _ SL B0 (le_trans (ltW m2) EM) W1. have [N2 HN2] := IH _ _ _ SR (le_trans B0 (ltW m1)) EM W2.
    exists (maxn N1 N2).+1. move=> [|fuel] // L l. rewrite /= Eg /=. move: L. rewrite ltnS geq_max => /andP [L1 L2].
    case: (coeffsignchanges g) C1 => [|[|v]] //= _. have [l1 ->] /= := HN1 fuel L1 l. rewrite EGr /=. exact: HN2.
move=> G B E S B0 EM. have [n W] := scale_arch (qr R E - qr R B) e0. exact: main S B0 EM W.
Qed.
Lemma uspensky_total (G : uz) : unorm G -> (udeg G < 2 ^ 63)%CZ -> coprimep (tr R G) (tr R G)^`() ->
  exists N res, forall fuel, (N <= fuel)%N -> uspensky fuel G = Ok res.
Proof.
move=> N D Hc. rewrite /uspensky. case: G N D Hc => [|[e c] G] N D Hc; first by exists 0%N, [::].
cbv beta iota. change (fst (e, c)) with e. case E0: (e =? 0)%CZ; first by exists 0%N, [::].
have [e0 c0] := n_in N (or_introl erefl). rewrite /= in e0 c0.
have U : upoly ((e, c) :: G) by []. have [_ B3] := @root_bound_ge (e, c) G c0.
have Bp : (0 < root_bound ((e, c) :: G))%CZ by lia.
have [S1 S2] := start_seen R U Bp. set B := root_bound _ in S1 S2 Bp *. clearbody B.
have Hc' : coprimep (refl (tr R ((e, c) :: G))) (refl (tr R ((e, c) :: G)))^`().
  rewrite /refl deriv_comp derivN derivX mulrN1 -[- (_ \Po _)]scaleN1r coprimepZr ?oppr_eq0 ?oner_eq0 //. exact: coprimep_comp_poly.
have Q0 : 0 <= qr R (qqc_int 0) by rewrite qr_int. have QB : qr R (qqc_int B) <= zr R B by rewrite qr_int.
have [N1 H1] := sub_total Hc' S2 Q0 QB. have [N2 H2] := sub_total Hc S1 Q0 QB.
have [l1 E1] := H1 (maxn N1 N2) (leq_maxl _ _) [::]. have [l2 E2] := H2 (maxn N1 N2) (leq_maxr _ _) [::].
exists (maxn N1 N2), (List.map neg_item (List.rev l1) ++ l2). move=> fuel L. by rewrite (sub_mono L E1) /= (sub_mono L E2).
Qed.
End R.
