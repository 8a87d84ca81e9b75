(** * Termination of the root isolation for several polynomials (realroot.cc 436-571). *)
From Verif Require Import Prelude Coef Spec SpecProofs GcdPoly GcdProofs MonoStruct MonoStructProofs OrderSpec PairVec PairVecProofs Heap Poly
  PolyMulProofs PolyOps ConvertProofs QQ NumSpec QQProofs UGcdBase Uspensky RootBound.
From mathcomp Require Import all_ssreflect all_algebra ssrZ polyrcf.
From Verif Require Import UspMath UspBase UspTrans UspIso UspList UspVec UspBound UspTop UspTerm.
Import Order.TTheory GRing.Theory Num.Theory.
Set Implicit Arguments.
Unset Strict Implicit.
Local Open Scope ring_scope.
Delimit Scope Z_scope with CZ.
Local Notation unorm := (normal uok (m_gt uniS) Zc).

Lemma keep_nodup (G : list (uz * nat)) vs : List.NoDup (List.map snd G) -> List.NoDup (List.map snd (keep G vs)).
Proof.
have KS : forall (G : list (uz * nat)) vs i, List.In i (List.map snd (keep G vs)) -> List.In i (List.map snd G).
  elim=> [|x G' IH] [|v ws] i //=. case: Nat.ltb => /=; [case; [by left|]|]; move/IH; by right.
elim: G vs => [|x G IH] [|v vs] //=; try by constructor. move/List.NoDup_cons_iff => [H1 H2].
case: Nat.ltb => /=; [constructor; [move/KS; exact: H1|]|]; exact: IH.
Qed.
Lemma mapM_right_snd G Gr : mapM_right G = Ok Gr -> List.map snd Gr = List.map snd G.
Proof.
elim: G Gr => [|[g i] G IH] Gr /=; first by move=> [<-]. case: (half_right g) => [g_| | |] //=. case E: (mapM_right G) => [r| | |] //= [<-] /=. by rewrite (IH _ E).
Qed.
Lemma non_numbers_nodup k Gs : List.NoDup (List.map snd (non_numbers k Gs)).
Proof.
elim: Gs k => [|g Gs IH] k /=; first by constructor. case: (u_is_number g); first exact: IH. rewrite /=. constructor; last exact: IH.
move/List.in_map_iff => [[h j] [Ej /non_numbers_in [[q [Eq _]] _]]]. rewrite /= in Ej. lia.
Qed.
Lemma count_zeros (vs : list nat) : (forall v, List.In v vs -> v = 0%N) -> count_v 0 vs = length vs /\ count_v 1 vs = 0%N.
Proof.
rewrite /count_v. elim: vs => [|v vs IH] H //=. have -> := H v (or_introl erefl). rewrite /=. have [-> ->] := IH (fun v I => H v (or_intror I)). by [].
Qed.

Section R.
Variable R : rcfType.
Hypothesis arch : forall x : R, exists n, x < 2%:R ^+ n.
Variables (Fs : nat -> {poly R}) (idx : list nat).
Hypothesis Hsq : forall i, List.In i idx -> coprimep (Fs i) (Fs i)^`().
Hypothesis Hpw : forall i j, List.In i idx -> List.In j idx -> i <> j -> coprimep (Fs i) (Fs j).

(** a common bound for finitely many conditions *)
Lemma common {A} (P : A -> R -> Prop) (L : list A) : (forall a d d', 0 < d' -> d' <= d -> P a d -> P a d') ->
  (forall a, List.In a L -> exists2 d, 0 < d & P a d) -> exists2 d, 0 < d & forall a, List.In a L -> P a d.
Proof.
move=> Hm. elim: L => [|a L IH] H; first by exists 1; rewrite ?ltr01.
have [d1 p1 H1] := H a (or_introl erefl). have [d2 p2 H2] := IH (fun a I => H a (or_intror I)).
have p : 0 < Num.min d1 d2 by rewrite lt_minr p1. exists (Num.min d1 d2) => //. move=> b /= [<-|I]; [apply: Hm H1|apply: Hm (H2 _ I)] => //; by rewrite le_minl lexx ?orbT.
Qed.
Lemma sep_bound (M : R) : exists2 d, 0 < d & forall b, `|b| <= M ->
  (forall i, List.In i idx -> d <= `|(Fs i).[b]| \/ d <= `|(Fs i)^`().[b]|) /\
  (forall i j, List.In i idx -> List.In j idx -> i <> j -> d <= `|(Fs i).[b]| \/ d <= `|(Fs j).[b]|).
Proof.
have [d1 p1 H1] := @common nat (fun i d => forall b, `|b| <= M -> d <= `|(Fs i).[b]| \/ d <= `|(Fs i)^`().[b]|) idx
  (fun a d d' _ L H b Hb => match H b Hb with or_introl q => or_introl (le_trans L q) | or_intror q => or_intror (le_trans L q) end)
  (fun i I => coprime_bound M (Hsq I)).
have [d2 p2 H2] := @common (nat * nat) (fun ij d => ij.1 <> ij.2 -> forall b, `|b| <= M -> d <= `|(Fs ij.1).[b]| \/ d <= `|(Fs ij.2).[b]|) (List.list_prod idx idx)
  (fun a d d' _ L H N b Hb => match H N b Hb with or_introl q => or_introl (le_trans L q) | or_intror q => or_intror (le_trans L q) end)
  (fun ij I => match Nat.eq_dec ij.1 ij.2 with left e => ex_intro2 _ _ 1 (@ltr01 R) (fun N => False_ind _ (N e)) |
      right n => let (d, p, H) := coprime_bound M (Hpw (proj1 (proj1 (List.in_prod_iff _ _ _ _) (eq_ind _ (fun x => List.In x _) I _ (surjective_pairing ij)))) (proj2 (proj1 (List.in_prod_iff _ _ _ _) (eq_ind _ (fun x => List.In x _) I _ (surjective_pairing ij)))) n) in
        ex_intro2 _ _ d p (fun _ => H) end).
exists (Num.min d1 d2); first by rewrite lt_minr p1. move=> b Hb. split.
- move=> i I. have L : Num.min d1 d2 <= d1 by rewrite le_minl lexx. case: (H1 i I b Hb) => H; [left|right]; exact: le_trans L H.
- move=> i j I J N. have L : Num.min d1 d2 <= d2 by rewrite le_minl lexx orbT.
  case: (H2 (i, j) (proj2 (List.in_prod_iff _ _ _ _) (conj I J)) N b Hb) => H; [left|right]; exact: le_trans L H.
Qed.
Definition vwf (G : list (uz * nat)) (B E : qqc) := List.NoDup (List.map snd G) /\ (forall g i, List.In (g, i) G -> List.In i idx /\ seen (Fs i) g B E) /\ qr R B < qr R E.
Definition term_ok (G : list (uz * nat)) (B E : qqc) := exists N, forall fuel, (N <= fuel)%N -> forall l, exists res, subuspensky_v fuel G l B E = Ok res.
Lemma vwf_inf G B E : vwf G B E -> exists2 vs, mapM_inf G = Ok vs & List.Forall2 (vok R) G vs.
Proof. move=> [_ [HS _]]. apply: mapM_inf_ok => -[g i] I. exact: (proj1 (proj2 (HS g i I))). Qed.
Lemma last_case G B E vs : vwf G B E -> mapM_inf G = Ok vs -> List.Forall2 (vok R) G vs ->
  count_v 0 vs = length G \/ (count_v 1 vs = 1%N /\ count_v 0 vs = (length G - 1)%N) -> term_ok G B E.
Proof.
move=> [_ [HS L]] EV FV H. have Len : length vs = length G by elim: FV => //= x y l1 l2 _ _ ->.
case: (Nat.eqb_spec (count_v 0 vs) (length G)) => C0.
  exists 1%N. move=> [|fuel] // _ l. rewrite /= EV /= (proj2 (Nat.eqb_eq _ _) C0). by eexists.
case: H => [//|[C1 C2]]. have C2' : count_v 0 vs = (length vs - 1)%N by rewrite Len.
have [l1 [l2 [EVs [Z1 [Z2 LO]]]]] := one_count 0 C1 C2'.
have [G1 [[g i] [G2 [EG [EL V]]]]] : exists G1 gi G2, G = G1 ++ gi :: G2 /\ length G1 = length l1 /\ vok R gi 1.
  move: FV. rewrite EVs => /List.Forall2_app_inv_r [G1 [G2 [F1 [F2 EG]]]]. inversion F2 as [|gi v1 G2' vs2 V F2' E1 E2]; subst. exists G1, gi, G2'. split=> //. split=> //.
  elim: F1 => //= x y q1 q2 _ _ ->. by [].
have [Ii S] := HS g i ltac:(rewrite EG; apply: List.in_or_app; by right; left).
have H1 : none1 R g by apply/(proj2 V). have H0 : ~ nsame R g by move/(proj1 V).
have [N HN] := shrink_total0 arch S H1 H0. exists N.+1. move=> [|fuel] // Lf l. rewrite /= EV /= (proj2 (Nat.eqb_neq _ _) C0) C1 C2 !Nat.eqb_refl /= (LO 0%N) add0n EG -EL List.nth_error_app2 // Nat.sub_diag /=.
have [[[b B1] E1] ->] := HN fuel Lf. by eexists.
Qed.
Lemma narrow (M d : R) : 0 < d -> (forall b, `|b| <= M -> (forall i, List.In i idx -> d <= `|(Fs i).[b]| \/ d <= `|(Fs i)^`().[b]|) /\
   (forall i j, List.In i idx -> List.In j idx -> i <> j -> d <= `|(Fs i).[b]| \/ d <= `|(Fs j).[b]|)) ->
  exists2 e, 0 < e & forall G B E, vwf G B E -> `|qr R B| <= M -> qr R E - qr R B <= e -> term_ok G B E.
Proof.
move=> d0 Hd. have [e e0 He] := @common nat (fun i e => forall G B E, seen (Fs i) G B E -> `|qr R B| <= M -> qr R E - qr R B <= e ->
  (d <= `|(Fs i).[qr R B]| -> nsame R G) /\ (d <= `|(Fs i)^`().[qr R B]| -> none1 R G)) idx
  (fun i e e' _ L H G B E S Hb w => H G B E S Hb (le_trans w L)) (fun i _ => small_seen (Fs i) M d0).
exists e => // G B E W Hb w. have [vs EV FV] := vwf_inf W. apply: (last_case W EV FV). case: W => [ND [HS L]].
have [D1 D2] := Hd _ Hb. clear EV.
have zeros : forall H ws, List.Forall2 (vok R) H ws -> (forall gi, List.In gi H -> List.In gi G) -> (forall gi, List.In gi H -> d <= `|(Fs gi.2).[qr R B]|) -> forall v, List.In v ws -> v = 0%N.
  move=> H ws. elim=> [|[g i] v H' ws' V _ IH] Hin HdG u //= [<-|I]; last by apply: IH I => gi J; [apply: Hin|apply: HdG]; right.
  apply/(proj1 V). have [Ii S] := HS _ _ (Hin _ (or_introl erefl)). apply: (proj1 (He i Ii _ _ _ S Hb w)). exact: (HdG (g, i) (or_introl erefl)).
have Len : length vs = length G by elim: FV => //= x y l1 l2 _ _ ->.
have [HA|[G1 [[g i] [G2 [EG Lt]]]]] : (forall gi, List.In gi G -> d <= `|(Fs gi.2).[qr R B]|) \/ exists G1 gi G2, G = G1 ++ gi :: G2 /\ `|(Fs gi.2).[qr R B]| < d.
  clear. elim: G => [|gi G IH]; first by left.
  case: (lerP d `|(Fs gi.2).[qr R B]|) => H; last by right; exists [::], gi, G.
  case: IH => [IH|[G1 [gj [G2 [-> Lt]]]]]; [left=> gk [<- //|]; exact: IH|right; by exists (gi :: G1), gj, G2].
- left. rewrite -Len. exact: (proj1 (count_zeros (zeros _ _ FV (fun gi I => I) HA))).
- have Ii := proj1 (HS g i ltac:(rewrite EG; apply: List.in_or_app; by right; left)).
  have others : forall gi, List.In gi G1 \/ List.In gi G2 -> d <= `|(Fs gi.2).[qr R B]|.
    move=> [h j] Hj /=. have Hin : List.In (h, j) G by rewrite EG; apply: List.in_or_app; case: Hj => Hj; [left|right; right].
    have Nij : i <> j. { move: ND. rewrite EG List.map_app /= => /(@List.NoDup_remove_2 _ _ _ _) X Eij. apply: X. apply: List.in_or_app. case: Hj => Hj; [left|right]; apply/List.in_map_iff; exists (h, j); by rewrite Eij. }
    case: (D2 i j Ii (proj1 (HS _ _ Hin)) Nij) => // X. by move: (le_lt_trans X Lt); rewrite ltxx.
  move: FV. rewrite EG => /List.Forall2_app_inv_l [l1 [l2' [F1 [F2 EVs]]]]. inversion F2 as [|gi v G2' l2 V F2' E1 E2]; subst.
  have X1 : forall gi, List.In gi G1 -> List.In gi (G1 ++ (g, i) :: G2) by move=> gi I; apply: List.in_or_app; left.
  have X2 : forall gi, List.In gi G2 -> List.In gi (G1 ++ (g, i) :: G2) by move=> gi I; apply: List.in_or_app; right; right.
  have X3 : List.In (g, i) (G1 ++ (g, i) :: G2) by apply: List.in_or_app; right; left.
  have Z1 := zeros _ _ F1 X1 (fun gi I => others gi (or_introl I)).
  have Z2 := zeros _ _ F2' X2 (fun gi I => others gi (or_intror I)).
  have v1 : (v <= 1)%N.
    apply/(proj2 V). have [_ S] := HS g i X3. apply: (proj2 (He i Ii _ _ _ S Hb w)).
    case: (D1 i Ii) => // X. by move: (le_lt_trans X Lt); rewrite ltxx.
  have [A0 A1] := count_zeros Z1. have [B0 B1] := count_zeros Z2. rewrite !List.app_length /= in Len.
  rewrite !count_app !List.app_length /= A0 A1. clear -v1 B0 B1 Len.
  have E0 : count_v 0 (v :: l2) = ((if v is 0%N then 1 else 0) + length l2)%N by rewrite -B0 /count_v /=; case: v {v1 Len} => [|[|v]].
  have E1 : count_v 1 (v :: l2) = (if v is 1%N then 1 else 0)%N by move: B1; rewrite /count_v /=; case: v {v1 Len E0} => [|[|v]] //= ->.
  rewrite E0 E1. case: v v1 {E0 E1} Len => [|[|v]] //= _ Len; [left|right; split]; lia.
Qed.

Lemma subv_total (M : R) G B E : vwf G B E -> 0 <= qr R B -> qr R E <= M -> term_ok G B E.
Proof.
have [d d0 Hd] := sep_bound M. have [e e0 He] := narrow d0 Hd.
have main : forall n G B E, vwf G B E -> 0 <= qr R B -> qr R E <= M -> qr R E - qr R B < 2%:R ^+ n * e -> term_ok G B E.
  elim=> [|n IH] {}G {}B {}E W B0 EM Wd; have L : qr R B < qr R E := proj2 (proj2 W).
  - rewrite expr0 mul1r in Wd. exact: He W (in_bound B0 (le_trans (ltW L) EM)) (ltW Wd).
  - have [vs EV FV] := vwf_inf W.
    case: (Nat.eqb_spec (count_v 0 vs) (length G)) => C0; first by apply: (last_case W EV FV); left.
    case C1: (Nat.eqb (count_v 1 vs) 1 && Nat.eqb (count_v 0 vs) (length G - 1)).
      apply: (last_case W EV FV). right. move/andP: C1 => [/Nat.eqb_eq -> /Nat.eqb_eq ->]. by [].
    case EM1: (mid_loop (q_mid B E) G vs) => [lm vs'].
    have [_ _ MS] := mid_loop_ok FV EM1. case: (W) => [ND [HS _]].
    have [m1 m2 W1 W2] := halves L Wd. have Em : qr R (q_mid B E) = (qr R B + qr R E) / 2%:R by rewrite qr_mid.
    have [Gr EGr [SR SR']] := @mapM_right_ok R Fs (keep G vs') B E (q_mid B E) Em (fun g i I => proj2 (HS g i (MS _ I))).
    have WL : vwf (List.map (fun gi : uz * nat => (half_left gi.1, gi.2)) (keep G vs')) B (q_mid B E).
      split; first by rewrite List.map_map /=; exact: keep_nodup. split=> //.
      move=> g i /List.in_map_iff [[g' i'] [[<- <-] I]]. have [J S] := HS _ _ (MS _ I). split=> //. exact: (proj1 (seen_left S Em)).
    have WR : vwf Gr (q_mid B E) E.
      split; first by rewrite (mapM_right_snd EGr); exact: keep_nodup. split=> //.
      move=> g i /SR [S [g' I]]. have [J _] := HS _ _ (MS _ I). by [].
    have [N1 HN1] := IH _ _ _ WL B0 (le_trans (ltW m2) EM) W1. have [N2 HN2] := IH _ _ _ WR (le_trans B0 (ltW m1)) EM W2.
    exists (maxn N1 N2).+1. move=> [|fuel] // Lf l. move: Lf. rewrite ltnS geq_max => /andP [L1 L2].
    rewrite /= EV /= (proj2 (Nat.eqb_neq _ _) C0) C1 EM1. have [l1 ->] /= := HN1 fuel L1 l. rewrite EGr /=. exact: HN2.
move=> W B0 EM. have [n Wd] := scale_arch arch (qr R E - qr R B) e0. exact: main W B0 EM Wd.
Qed.
End R.

Lemma uspensky_v_total (R : rcfType) (Gs : list uz) : (forall x : R, exists n, x < 2%:R ^+ n) ->
  (forall g, List.In g Gs -> unorm g /\ (udeg g < 2 ^ 63)%CZ) ->
  (forall g, List.In g Gs -> u_is_number g = false -> coprimep (tr R g) (tr R g)^`()) ->
  (forall i j gi gj, List.nth_error Gs i = Some gi -> List.nth_error Gs j = Some gj -> u_is_number gi = false -> u_is_number gj = false -> i <> j -> coprimep (tr R gi) (tr R gj)) ->
  exists N res, forall fuel, (N <= fuel)%N -> uspensky_v fuel Gs = Ok res.
Proof.
move=> arch HN Hs Hp. rewrite /uspensky_v.
set G := non_numbers 0 Gs.
have HG : forall g i, List.In (g, i) G <-> List.nth_error Gs i = Some g /\ u_is_number g = false.
  move=> g i. rewrite /G non_numbers_in. split=> [[[j [-> H]] Hg] //|[H Hg]]. split=> //. by exists i.
pose Fs i := if List.nth_error Gs i is Some g then tr R g else 0. pose idx := List.map snd G.
have Hidx : forall i, List.In i idx <-> exists2 g, List.nth_error Gs i = Some g & u_is_number g = false.
  move=> i. rewrite /idx List.in_map_iff. split.
  - move=> [[g j] [<- /HG [H1 H2]]]. by exists g.
  - move=> [g H1 H2]. exists (g, i). split=> //. exact/HG.
have HFs : forall i g, List.nth_error Gs i = Some g -> Fs i = tr R g by move=> i g; rewrite /Fs => ->.
have Hsq : forall i, List.In i idx -> coprimep (Fs i) (Fs i)^`().
  move=> i /Hidx [g Hg Ng]. rewrite (HFs _ _ Hg). apply: Hs Ng. exact: List.nth_error_In Hg.
have Hpw : forall i j, List.In i idx -> List.In j idx -> i <> j -> coprimep (Fs i) (Fs j).
  move=> i j /Hidx [g Hg Ng] /Hidx [h Hh Nh]. rewrite (HFs _ _ Hg) (HFs _ _ Hh). exact: Hp Hg Hh Ng Nh.
have Hsq' : forall i, List.In i idx -> coprimep (refl (Fs i)) (refl (Fs i))^`().
  move=> i I. rewrite /refl deriv_comp derivN derivX mulrN1 -[- (_ \Po _)]scaleN1r coprimepZr ?oppr_eq0 ?oner_eq0 //. apply: coprimep_comp_poly. exact: Hsq.
have Hpw' : forall i j, List.In i idx -> List.In j idx -> i <> j -> coprimep (refl (Fs i)) (refl (Fs j)).
  move=> i j I J N. apply: coprimep_comp_poly. exact: Hpw.
have HU : forall g i, List.In (g, i) G -> upoly g.
  move=> g i /HG [Hi Ng]. have [N D] := HN _ (List.nth_error_In _ _ Hi). split=> //. split=> // Eg. by rewrite Eg in Ng.
case EG: G => [|gi0 G0]; first by exists 0%N, [::].
have I0 : List.In gi0 G by rewrite EG; left.
rewrite -EG. have [_ HB] := max_bound_ge G. set B := max_bound G in HB *.
have B3 : (3 <= B)%CZ.
  apply: Z.le_trans (HB _ I0). case: gi0 I0 {EG} => g0 i0 /HU [N [Ne _]]. case: g0 N Ne => [//|[e c] g0] N _. have [_ c0] := n_in N (or_introl erefl). exact: (proj2 (@root_bound_ge (e, c) g0 c0)).
clearbody B. have Bp : (0 < B)%CZ by lia.
have L0 : qr R (qqc_int 0) < qr R (qqc_int B) by rewrite !qr_int zr_lt; apply/Z.ltb_lt.
have ND : forall f : uz -> uz, List.NoDup (List.map snd (List.map (fun gi : uz * nat => (f gi.1, gi.2)) G)) by move=> f; rewrite List.map_map /=; exact: non_numbers_nodup.
have W1 : vwf Fs idx (List.map (fun gi : uz * nat => (b_to_1 gi.1 B, gi.2)) G) (qqc_int 0) (qqc_int B).
  split; first exact: (ND (fun g => b_to_1 g B)). split=> //. move=> g i /List.in_map_iff [[g' i'] [[<- <-] I]]. split; first by apply/List.in_map_iff; exists (g', i').
  rewrite (HFs _ _ (proj1 (proj1 (HG _ _) I))). exact: (proj1 (start_seen R (HU _ _ I) Bp)).
have W2 : vwf (fun i => refl (Fs i)) idx (List.map (fun gi : uz * nat => (b_to_1 gi.1 (- B), gi.2)) G) (qqc_int 0) (qqc_int B).
  split; first exact: (ND (fun g => b_to_1 g (- B))). split=> //. move=> g i /List.in_map_iff [[g' i'] [[<- <-] I]]. split; first by apply/List.in_map_iff; exists (g', i').
  rewrite (HFs _ _ (proj1 (proj1 (HG _ _) I))). exact: (proj2 (start_seen R (HU _ _ I) Bp)).
have Q0 : 0 <= qr R (qqc_int 0) by rewrite qr_int. have QB : qr R (qqc_int B) <= zr R B by rewrite qr_int.
have [N1 H1] := subv_total arch Hsq' Hpw' W2 Q0 QB. have [N2 H2] := subv_total arch Hsq Hpw W1 Q0 QB.
have [l1 E1] := H1 (maxn N1 N2) (leq_maxl _ _) [::]. have [l2 E2] := H2 (maxn N1 N2) (leq_maxr _ _) [::].
exists (maxn N1 N2), (List.map neg_itemv (List.rev l1) ++ zero_item G ++ l2). move=> fuel L. by rewrite (subv_mono L E1) /= (subv_mono L E2).
Qed.
