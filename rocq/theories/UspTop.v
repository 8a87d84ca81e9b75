(** * Correctness of uspensky (realroot.cc 142-160, 495-571). *)
From Verif Require Import Prelude Coef Spec SpecProofs GcdPoly GcdProofs MonoStruct MonoStructProofs OrderSpec PairVec PairVecProofs Heap Poly
  PolyMulProofs PolyOps ConvertProofs QQ NumSpec QQProofs UGcdBase Uspensky RootBound.
From mathcomp Require Import all_ssreflect all_algebra ssrZ polyrcf.
From Verif Require Import UspMath UspBase UspTrans UspIso UspList UspVec UspBound.
Import Order.TTheory GRing.Theory Num.Theory.
Set Implicit Arguments.
Unset Strict Implicit.
Local Open Scope ring_scope.
Delimit Scope Z_scope with CZ.
Local Notation unorm := (normal uok (m_gt uniS) Zc).

Lemma forall2_impl {A C} (P Q : A -> C -> Prop) l r : (forall a b, P a b -> Q a b) -> List.Forall2 P l r -> List.Forall2 Q l r.
Proof. move=> H. elim=> [|x y l' r' K _ IH]; constructor=> //. exact: H. Qed.

Section T.
Variable R : rcfType.

Definition refl (F : {poly R}) : {poly R} := F \Po (- 'X).
Lemma refl_horner F x : (refl F).[x] = F.[- x]. Proof. by rewrite /refl horner_comp hornerN hornerX. Qed.
Lemma start_seen (G : uz) B : upoly G -> (0 < B)%CZ -> seen (tr R G) (b_to_1 G B) (qqc_int 0) (qqc_int B) /\ seen (refl (tr R G)) (b_to_1 G (- B)) (qqc_int 0) (qqc_int B).
Proof.
move=> [N [Ne D]] B0.
have L : qr R (qqc_int 0) < qr R (qqc_int B) by rewrite !qr_int zr_lt; apply/Z.ltb_lt.
have [N1 [D1 [E1 Ne1]]] := b_to_1_ok R N (B := B) ltac:(lia). have [N2 [D2 [E2 Ne2]]] := b_to_1_ok R N (B := (- B)%CZ) ltac:(lia).
have U1 : upoly (b_to_1 G B) by split=> //; split; [move/Ne1|rewrite D1].
have U2 : upoly (b_to_1 G (- B)) by split=> //; split; [move/Ne2|rewrite D2].
split; (split=> //; split=> //; exists 1; first exact: ltr01).
- rewrite E1 /aff scale1r !qr_int zr_0 subr0 add0r. by [].
- rewrite E2 /aff scale1r !qr_int zr_0 subr0 add0r zr_opp. apply: poly_eq_pos => x _. rewrite /refl !horner_comp hornerN !hornerZ !hornerX mulNr. by [].
Qed.

(** the single-polynomial version: every non-zero root is isolated *)
Lemma uspensky_ok fuel (G : uz) l : unorm G -> (udeg G < 2 ^ 63)%CZ -> G <> [::] -> uspensky fuel G = Ok l ->
  exists rs : seq R, [/\ sorted <%R rs, (forall x, x \in rs <-> x != 0 /\ (tr R G).[x] = 0),
    List.Forall2 (fun t r => iso (fun x => (tr R G).[x] = 0) (ilo R t) (ihi R t) r) l rs
    & exists B, chain (ilo R) (ihi R) (- B) l B].
Proof.
move=> N D Ne. rewrite /uspensky. case: G N D Ne => [//|[e c] G] N D Ne.
have [e0 c0] := n_in N (or_introl erefl). rewrite /= in e0 c0.
have U : upoly ((e, c) :: G) by [].
have [_ B3] := @root_bound_ge (e, c) G c0. have RB := root_bound_ok (R := R) N Ne. have B1 : 0 < zr R (root_bound ((e, c) :: G)) by apply: zr_lt0; lia.
have Bp : (0 < root_bound ((e, c) :: G))%CZ by lia.
have [S1 S2] := start_seen U Bp.
set B := root_bound _ in RB S1 S2 B1 *. clearbody B.
case: ifP => E0.
  move=> [<-]. have E0' : e = 0%CZ by move: E0; rewrite /=; lia. exists [::]. split=> //; last by exists 0; rewrite /= oppr0.
  move=> x. rewrite in_nil. split=> // -[_ X]. move: (tr_size R N Ne) X. rewrite /dg /= E0' => /eqP/size_poly1P [a a0 ->]. by rewrite hornerC => Ea; rewrite Ea eqxx in a0.
case El1: (subuspensky _ _ _ _ _) => [l1| | |] //=. case El2: (subuspensky _ _ _ _ _) => [l2| | |] //= [<-].
have [l1' El1' I1] := subuspensky_ok S2 El1. have [l2' El2' I2] := subuspensky_ok S1 El2. rewrite /= in El1' El2'. subst l1' l2'.
rewrite !qr_int zr_0 in I1 I2.
have [rs1 [O1 M1 F1 C1]] : isolating (ilo R) (ihi R) (fun x => (tr R ((e, c) :: G)).[x] = 0) (fun _ _ => True) (- zr R B) (- 0) (List.map neg_item (List.rev l1)).
  apply: (iso_neg _ _ _ _ I1); [by move=> t; rewrite /ilo /ihi /neg_item /= qr_neg|by move=> t; rewrite /ilo /ihi /neg_item /= qr_neg|move=> x; by rewrite refl_horner|by []].
rewrite oppr0 in M1 C1. case: I2 => rs2 [O2 M2 F2 C2].
exists (rs1 ++ rs2). split.
- have [X _] := @sorted_cat3 R rs1 rs2 0 O1 O2 (fun x H => match proj1 (M1 x) H with And3 _ A _ => A end) (fun x H => match proj1 (M2 x) H with And3 A _ _ => A end). exact: X.
- move=> x. rewrite mem_cat. split.
  + move/orP => [/M1 [A C X]|/M2 [A C X]]; split=> //; [by rewrite lt_eqF|by rewrite gt_eqF].
  + move=> [x0 X]. have := RB x X. rewrite ltr_norml => /andP [A C]. apply/orP. case: (ltgtP x 0) => Lx; [left; by apply/M1|right; by apply/M2|by rewrite Lx eqxx in x0].
- by apply: List.Forall2_app; [move: F1|move: F2]; apply: forall2_impl => t r [].
- exists (zr R B). exact: chain_cat C1 C2.
Qed.
Lemma Rt_neg (Fs : nat -> {poly R}) idx x : Rt (fun i => refl (Fs i)) idx x <-> Rt Fs idx (- x).
Proof. split=> -[i I X]; exists i => //; move: X; by rewrite refl_horner. Qed.

(** several polynomials *)
Lemma max_bound_ge G : (0 <= max_bound G)%CZ /\ forall gi, List.In gi G -> (root_bound gi.1 <= max_bound G)%CZ.
Proof.
rewrite /max_bound. have H : forall (G : list (uz * nat)) b, let m := fold_left (fun b gi => if (root_bound (fst gi) >? b)%CZ then root_bound (fst gi) else b) G b in (b <= m)%CZ /\ forall gi, List.In gi G -> (root_bound gi.1 <= m)%CZ.
  elim=> [|g G' IH] b /=; first by split=> //; lia.
  case: Z.gtb_spec => H; [case: (IH (root_bound g.1))|case: (IH b)] => A1 A2; split; try lia; move=> u [<-|I]; try lia; auto.
exact: (H G 0%CZ).
Qed.
Lemma non_numbers_in Gs k g i : List.In (g, i) (non_numbers k Gs) <-> (exists j, i = (k + j)%N /\ List.nth_error Gs j = Some g) /\ u_is_number g = false.
Proof.
elim: Gs k => [|h Gs IH] k /=.
  split=> // -[[[|j] [_ H]] _]; discriminate H.
case EN: (u_is_number h); [|rewrite /=]; rewrite IH.
- split=> -[[j [-> H]] Hg]; split=> //; first by exists j.+1; split=> //; lia.
  case: j H => [|j] /= H; [move: H EN => [->]; by rewrite Hg|exists j; split=> //; lia].
- split.
  + case=> [[<- <-]|[[j [-> H]] Hg]]; (split; last by []); [by exists 0%N; split=> //; lia|exists j.+1; split=> //; lia].
  + move=> [[[|j] [Ei /= H]] Hg]; [left; move: H => [->]; congr (_, _); lia|right; split=> //; exists j; split=> //; lia].
Qed.
Lemma zero_item_ok G : (zero_item G = [::] /\ forall gi, List.In gi G -> is_root gi.1 (qqc_int 0) = false) \/
  (exists2 gi, List.In gi G & is_root gi.1 (qqc_int 0) /\ zero_item G = [:: (qqc_int 0, qqc_int 0, gi.2)]).
Proof.
elim: G => [|[g i] G IH] /=; first by left. case E: (is_root g _); first by right; exists (g, i); [left|].
case: IH => [[-> H]|[gi I H]]; [left; split=> // gi [<- //|]; exact: H|right; exists gi => //; by right].
Qed.

Lemma uspensky_v_ok fuel (Gs : list uz) l : (forall g, List.In g Gs -> unorm g /\ (udeg g < 2 ^ 63)%CZ) ->
  uspensky_v fuel Gs = Ok l ->
  let Lab (t : item) x := exists2 g, List.nth_error Gs t.2 = Some g & u_is_number g = false /\ (tr R g).[x] = 0 in
  let Rt x := exists2 g, List.In g Gs & u_is_number g = false /\ (tr R g).[x] = 0 in
  exists rs : seq R, [/\ sorted <%R rs, (forall x, x \in rs <-> Rt x),
    List.Forall2 (fun t r => iso Rt (vlo R t) (vhi R t) r /\ Lab t r) l rs
    & exists B, chain (vlo R) (vhi R) (- B) l B].
Proof.
move=> HN. set RtG := fun x => exists2 g, _ & _. set LabG := fun t x => exists2 g, _ & _. cbv zeta. rewrite /uspensky_v -/RtG -/LabG.
set G := non_numbers 0 Gs.
have HG : forall g i, List.In (g, i) G <-> List.nth_error Gs i = Some g /\ u_is_number g = false.
  move=> g i. rewrite /G non_numbers_in. split=> [[[j [-> H]] Hg] //|[H Hg]]. split=> //. by exists i.
pose Fs i := if List.nth_error Gs i is Some g then tr R g else 0. pose idx := List.map snd G.
have Hidx : forall i, List.In i idx <-> exists2 g, List.nth_error Gs i = Some g & u_is_number g = false.
  move=> i. rewrite /idx List.in_map_iff. split.
  - move=> [[g j] [<- /HG [H1 H2]]]. by exists g.
  - move=> [g H1 H2]. exists (g, i). split=> //. exact/HG.
have HFs : forall i g, List.nth_error Gs i = Some g -> Fs i = tr R g by move=> i g; rewrite /Fs => ->.
have HU : forall g i, List.In (g, i) G -> upoly g.
  move=> g i /HG [Hi Ng]. have [N D] := HN _ (List.nth_error_In _ _ Hi). split=> //. split=> // Eg. by rewrite Eg in Ng.
have RtE : forall x, Rt Fs idx x <-> RtG x.
  move=> x. split.
  - move=> [i /Hidx [g Hg Ng] X]. exists g; first exact: List.nth_error_In Hg. by rewrite (HFs _ _ Hg) in X.
  - move=> [g /(@List.In_nth_error _ _ _) [i Hi] [Ng X]]. exists i; [apply/Hidx; by exists g|by rewrite (HFs _ _ Hi)].
have LabE : forall t x, Lab Fs idx t x <-> LabG t x.
  move=> t x. split.
  - move=> [/Hidx [g Hg Ng] X]. exists g => //. by rewrite (HFs _ _ Hg) in X.
  - move=> [g Hg [Ng X]]. split; [apply/Hidx; by exists g|by rewrite (HFs _ _ Hg)].
case EG: G => [|gi0 G0].
  move=> [<-]. exists [::]. split=> //; last by exists 0; rewrite /= oppr0. move=> x. rewrite in_nil. split=> // /RtE [i]. by rewrite /idx EG.
have I0 : List.In gi0 G by rewrite EG; left.
rewrite -EG => {G0 EG} HR. have [_ HB] := max_bound_ge G. set B := max_bound G in HB HR.
have B3 : (3 <= B)%CZ.
  apply: Z.le_trans (HB _ I0). case: gi0 I0 => g0 i0 /HU [N [Ne _]]. case: g0 N Ne => [//|[e c] g0] N _. have [_ c0] := n_in N (or_introl erefl). exact: (proj2 (@root_bound_ge (e, c) g0 c0)).
clearbody B. have Bp : (0 < B)%CZ by lia. have B1 : 0 < zr R B by exact: zr_lt0.
have RB : forall x i, List.In i idx -> (Fs i).[x] = 0 -> - zr R B < x /\ x < zr R B.
  move=> x i /Hidx [g Hg Ng]. rewrite (HFs _ _ Hg) => X. have I : List.In (g, i) G by apply/HG. have [N [Ne _]] := HU _ _ I.
  have H := root_bound_ok N Ne X. apply/andP. rewrite -ltr_norml. apply: lt_le_trans H _. rewrite zr_le. apply/Z.leb_le. exact: (HB _ I).
have L0 : qr R (qqc_int 0) < qr R (qqc_int B) by rewrite !qr_int zr_lt; apply/Z.ltb_lt.
have A1 : active Fs idx (List.map (fun gi : uz * nat => (b_to_1 gi.1 B, gi.2)) G) (qqc_int 0) (qqc_int B).
  split=> //.
  - move=> g i /List.in_map_iff [[g' i'] [[<- <-] I]]. split; first by apply/List.in_map_iff; exists (g', i').
    rewrite (HFs _ _ (proj1 (proj1 (HG _ _) I))). exact: (proj1 (start_seen (HU _ _ I) Bp)).
  - move=> i /List.in_map_iff [[g' i'] [<- I]]. left. exists (b_to_1 g' B). apply/List.in_map_iff. by exists (g', i').
have A2 : active (fun i => refl (Fs i)) idx (List.map (fun gi : uz * nat => (b_to_1 gi.1 (- B), gi.2)) G) (qqc_int 0) (qqc_int B).
  split=> //.
  - move=> g i /List.in_map_iff [[g' i'] [[<- <-] I]]. split; first by apply/List.in_map_iff; exists (g', i').
    rewrite (HFs _ _ (proj1 (proj1 (HG _ _) I))). exact: (proj2 (start_seen (HU _ _ I) Bp)).
  - move=> i /List.in_map_iff [[g' i'] [<- I]]. left. exists (b_to_1 g' (- B)). apply/List.in_map_iff. by exists (g', i').
move: HR. case El1: (subuspensky_v _ _ _ _ _) => [l1| | |] //=. case El2: (subuspensky_v _ _ _ _ _) => [l2| | |] //= [<-].
have [l1' El1' I1] := subuspensky_v_ok A2 El1. have [l2' El2' I2] := subuspensky_v_ok A1 El2. rewrite /= in El1' El2'. subst l1' l2'.
rewrite !qr_int zr_0 in I1 I2.
have I1' : isolating (vlo R) (vhi R) (Rt Fs idx) (Lab Fs idx) (- zr R B) (- 0) (List.map neg_itemv (List.rev l1)).
  apply: (iso_neg _ _ _ _ I1); [by move=> t; rewrite /vlo /vhi /neg_itemv /= qr_neg|by move=> t; rewrite /vlo /vhi /neg_itemv /= qr_neg|exact: Rt_neg|].
  move=> t x [J X]. split=> //. by rewrite refl_horner in X.
rewrite oppr0 in I1'.
have [rs [O M F C]] : isolating (vlo R) (vhi R) (Rt Fs idx) (Lab Fs idx) (- zr R B) (zr R B) (List.map neg_itemv (List.rev l1) ++ zero_item G ++ l2).
  have zroot : forall g i, List.In (g, i) G -> is_root g (qqc_int 0) = ((Fs i).[0] == 0).
    move=> g i I. rewrite (is_root_ok R) qr_int zr_0. by rewrite (HFs _ _ (proj1 (proj1 (HG _ _) I))).
  case: (zero_item_ok G) => [[-> N]|[[g i] I [H ->]]].
  - apply: (iso_cat I1' I2) => //; [by rewrite oppr_lt0|]. move=> [i /List.in_map_iff [[g i'] [/= Ei I]] X]. rewrite Ei in I.
    have := N _ I. by rewrite /= (zroot _ _ I) X eqxx.
  - move: H. rewrite /= (zroot _ _ I) => /eqP X. have J : List.In i idx by apply/List.in_map_iff; exists (g, i).
    apply: (iso_cat3 I1' I2) => //; rewrite ?oppr_lt0 //; first by exists i.
    1-2: exact: (qr_int R 0).
exists rs. split=> //.
- move=> x. rewrite M. split; first by move=> [_ _ /RtE]. move=> /RtE X. split=> //; case: X => i I X; by case: (RB x i I X).
- apply: forall2_impl F => t r [[Hr H] /LabE HL]. split=> //. split; first exact/RtE. case: H => [H|[H1 H2 H3 H4]]; [by left|right]. split=> //.
  move=> x x1 x2 /RtE. exact: H4.
- by exists (zr R B).
Qed.
End T.
