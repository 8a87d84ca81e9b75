(** * Correctness of subuspensky for several polynomials (realroot.cc 436-493). *)
From Verif Require Import Prelude Coef Spec SpecProofs GcdPoly GcdProofs MonoStruct MonoStructProofs OrderSpec PairVec PairVecProofs Heap Poly
  PolyMulProofs PolyOps ConvertProofs QQ NumSpec QQProofs UGcdBase Uspensky RootBound.
From mathcomp Require Import all_ssreflect all_algebra ssrZ polyrcf.
From Verif Require Import UspMath UspBase UspTrans UspIso UspList.
Import Order.TTheory GRing.Theory Num.Theory.
Set Implicit Arguments.
Unset Strict Implicit.
Local Open Scope ring_scope.
Delimit Scope Z_scope with CZ.

(** ** Counting *)
Lemma count_le k vs : (count_v k vs <= length vs)%N.
Proof. rewrite /count_v. elim: vs => [|v vs IH] //=. case: (Nat.eqb k v) => //=. exact: leqW. Qed.
Lemma count_all k vs : count_v k vs = length vs -> forall v, List.In v vs -> v = k.
Proof.
elim: vs => [|w vs IH] // H v. have Hl := count_le k vs. move: H. rewrite /count_v /=. case: Nat.eqb_spec => /= [<-|N] E.
- move: E => [E] [<- //|I]. exact: IH.
- exfalso. move: Hl. rewrite /count_v E ltnn. by [].
Qed.
Lemma count_app k a b : count_v k (a ++ b) = (count_v k a + count_v k b)%N.
Proof. rewrite /count_v. elim: a => [|v a IH] //=. case: (Nat.eqb k v) => //=. by rewrite IH. Qed.
Lemma last_none i vs d : count_v 1 vs = 0%N -> last_one i vs d = d.
Proof. elim: vs i d => [|v vs IH] i d //=. rewrite /count_v /=. case: v => [|[|v]] //= H; exact: IH. Qed.
Lemma one_count vs d : count_v 1 vs = 1%N -> count_v 0 vs = (length vs - 1)%N ->
  exists l1 l2, vs = l1 ++ 1%N :: l2 /\ (forall v, List.In v l1 -> v = 0%N) /\ (forall v, List.In v l2 -> v = 0%N) /\ (forall i, last_one i vs d = (i + length l1)%N).
Proof.
move=> H1 H0.
have [l1 [l2 [E C2]]] : exists l1 l2, vs = l1 ++ 1%N :: l2 /\ (count_v 1 l1 = 0%N /\ count_v 1 l2 = 0%N).
  elim: vs H1 {H0} => [|v vs IH] //. case: (v =P 1%N) => [->|N].
  - rewrite /count_v /= => -[E]. by exists [::], vs.
  - move=> H. have H' : count_v 1 vs = 1%N. { move: H. rewrite /count_v /=. case: v N => [|[|v]] //=. }
    have [l1 [l2 [E [A B]]]] := IH H'. exists (v :: l1), l2. rewrite E. split=> //. split=> //. rewrite /count_v /=. by case: v N {H} => [|[|v]].
exists l1, l2. split=> //. case: C2 => C1 C2.
move: H0. rewrite E count_app List.app_length /=. have A := count_le 0 l1. have B := count_le 0 l2. rewrite {2}/count_v /= -/(count_v 0 l2) => H0.
have E1 : count_v 0 l1 = length l1 by lia. have E2 : count_v 0 l2 = length l2 by lia.
split; first exact: count_all. split; first exact: count_all.
move=> i. clear -C1 C2. elim: l1 i d C1 => [|v l1 IH] i d /=.
- move=> _. by rewrite last_none // addn0.
- rewrite /count_v /=. case: v => [|[|v]] //= H; rewrite IH // addnS; lia.
Qed.

Section V.
Variable R : rcfType.
Variables (Fs : nat -> {poly R}) (idx : list nat).
Definition Rt x : Prop := exists2 i, List.In i idx & (Fs i).[x] = 0.
Definition vlo (t : item) : R := qr R t.1.1.
Definition vhi (t : item) : R := qr R t.1.2.
Definition Lab (t : item) (r : R) : Prop := List.In t.2 idx /\ (Fs t.2).[r] = 0.
Definition active (G : list (uz * nat)) (B E : qqc) : Prop :=
  [/\ qr R B < qr R E, (forall g i, List.In (g, i) G -> List.In i idx /\ seen (Fs i) g B E)
   & forall i, List.In i idx -> (exists g, List.In (g, i) G) \/ (forall x, qr R B < x -> x < qr R E -> (Fs i).[x] <> 0)].
Definition vok (gi : uz * nat) (v : nat) : Prop := (v = 0%N <-> nsame R gi.1) /\ ((v <= 1)%N <-> none1 R gi.1).

Lemma mapM_inf_ok G : (forall gi, List.In gi G -> upoly gi.1) -> exists2 vs, mapM_inf G = Ok vs & List.Forall2 vok G vs.
Proof.
elim: G => [|[g i] G IH] H /=; first by exists [::].
have [g_ -> V] /= := to_inf_v R (H (g, i) (or_introl erefl)).
have [vs -> F] /= := IH (fun gi I => H gi (or_intror I)). exists (coeffsignchanges g_ :: vs) => //. by constructor.
Qed.
Lemma mid_loop_ok mid G vs lm vs' : List.Forall2 vok G vs -> mid_loop mid G vs = (lm, vs') ->
  [/\ (lm = [::] /\ forall gi, List.In gi G -> is_root gi.1 q_half = false) \/
      (exists2 gi, List.In gi G & is_root gi.1 q_half /\ lm = [:: (mid, mid, gi.2)]),
      (forall gi, List.In gi G -> List.In gi (keep G vs') \/ nsame R gi.1 \/ (none1 R gi.1 /\ is_root gi.1 q_half))
    & (forall gi, List.In gi (keep G vs') -> List.In gi G)].
Proof.
have KS : forall (G : list (uz * nat)) vs gi, List.In gi (keep G vs) -> List.In gi G.
  elim=> [|x G' IH] [|v ws] gi //=. case: Nat.ltb => /=; [case; [by left|]|]; move/IH; by right.
have KF : forall G vs, List.Forall2 vok G vs -> forall gi, List.In gi G -> List.In gi (keep G vs) \/ nsame R gi.1.
  move=> G' vs1. elim=> [|x v G1 vs2 V _ IH] gi //=. case=> [<-|/IH I].
  - case: Nat.ltb_spec => L /=; [by left; left|right]. apply/(proj1 V). clear -L; lia.
  - case: Nat.ltb => /=; case: I => I; [left; right|right|left|right]; exact I.
move=> F. elim: F lm vs' => [|[g i] v G' vs1 V F IH] lm vs' /=.
  move=> [<- _]. split=> //. by left.
case Rh: (is_root g q_half).
- move=> [<- <-]. split; [by right; exists (g, i); [left|]| |by move=> gi; exact: (KS ((g, i) :: G') ((if Nat.eqb v 1 then 0%N else v) :: vs1) gi)].
  move=> gi /= [<-|I] /=.
  + case: Nat.eqb_spec => v1.
    * right. right. split=> //. apply/(proj2 V). by rewrite v1.
    * case: Nat.ltb_spec => L /=; [by left; left|right; left]. apply/(proj1 V). clear -L; lia.
  + have [K|K] := KF _ _ F _ I; [left|by right; left].
    case: Nat.eqb => /=; [exact: K|]. case: Nat.ltb => /=; [right|]; exact K.
- case EM: (mid_loop mid G' vs1) => [l1 w1] [<- <-]. have [A B C] := IH _ _ EM. split.
  + case: A => [[-> A]|[gi I A]]; [left; split=> // gi [<- //|I]; exact: A|right; exists gi => //; by right].
  + move=> gi /= [<-|I].
    * case: Nat.ltb_spec => L /=; [by left; left|right; left]. apply/(proj1 V). clear -L; lia.
    * case: (B gi I) => [K|K]; [left|by right]. case: Nat.ltb => /=; [right|]; exact K.
  + move=> gi. exact: (KS ((g, i) :: G') (v :: w1) gi).
Qed.
Lemma mapM_right_ok G B E m : qr R m = (qr R B + qr R E) / 2%:R -> (forall g i, List.In (g, i) G -> seen (Fs i) g B E) ->
  exists2 Gr, mapM_right G = Ok Gr & (forall g i, List.In (g, i) Gr -> seen (Fs i) g m E /\ exists g', List.In (g', i) G) /\ (forall g i, List.In (g, i) G -> exists g', List.In (g', i) Gr).
Proof.
move=> Em. elim: G => [|[g i] G IH] H /=; first by exists [::].
have [gr -> [S _]] /= := seen_right (H g i (or_introl erefl)) Em.
have [Gr -> [H1 H2]] /= := IH (fun g i I => H g i (or_intror I)). exists ((gr, i) :: Gr) => //. split.
- move=> g' j /= [[<- <-]|/H1 [S' [g'' I]]]; split=> //; [exists g; by left|exists g''; by right].
- move=> g' j /= [[_ <-]|/H2 [g'' I]]; [exists gr; by left|exists g''; by right].
Qed.

Lemma subuspensky_v_ok fuel G l B E l' : active G B E -> subuspensky_v fuel G l B E = Ok l' ->
  exists2 l0, l' = l ++ l0 & isolating vlo vhi Rt Lab (qr R B) (qr R E) l0.
Proof.
elim: fuel G l B E l' => [|fuel IH] G l B E l' A //=. have [L HS HA] := A.
have [vs -> FV] /= := mapM_inf_ok (fun gi I => proj1 (proj2 (HS gi.1 gi.2 (eq_ind _ (fun x => List.In x G) I _ (surjective_pairing gi))))).
have Len : length vs = length G by elim: FV => //= x y l1 l2 _ _ ->.
have [m1 m2] := qr_mid_in L. have Em : qr R (q_mid B E) = (qr R B + qr R E) / 2%:R by rewrite qr_mid.
have rootG : forall x i, qr R B < x -> x < qr R E -> List.In i idx -> (Fs i).[x] = 0 -> exists2 g, List.In (g, i) G & ~ nsame R g.
  move=> x i x1 x2 I X. case: (HA i I) => [[g J]|H]; last by case: (H x x1 x2 X). exists g => // Q.
  have := seen_none (proj2 (HS g i J)) Q x1 x2. by rewrite X eqxx.
case: Nat.eqb_spec => C0.
  move=> [<-]. exists [::]; first by rewrite cats0. apply: iso_nil; first exact: ltW.
  move=> x x1 x2 [i I X]. have [g J NS] := rootG x i x1 x2 I X. case: NS. rewrite -Len in C0. have AL := count_all C0.
  elim: FV AL J => [|gi v G' vs' V _ IHF] AL //= [J|J]; last by apply: IHF => // w Hw; apply: AL; right.
  have V0 := AL v (or_introl erefl). move: V. rewrite J => -[V _]. exact/V.
case: ifP => C1.
  move/andP: C1 => [/Nat.eqb_eq C1 /Nat.eqb_eq C2]. rewrite -Len in C2.
  have [l1 [l2 [EV [Z1 [Z2 LO]]]]] := one_count 0 C1 C2. rewrite (LO 0%N) add0n.
  have [G1 [[g i] [G2 [EG [EL [F1 [V F2]]]]]]] : exists G1 gi G2, G = G1 ++ gi :: G2 /\ length G1 = length l1 /\ List.Forall2 vok G1 l1 /\ vok gi 1 /\ List.Forall2 vok G2 l2.
    move: FV. rewrite EV => /List.Forall2_app_inv_r [G1 [G2 [F1 [F2 EG]]]]. inversion F2 as [|gi v1 G2' vs2 V F2' E1 E2]; subst. exists G1, gi, G2'. split=> //. split=> //.
    elim: F1 => //= x y q1 q2 _ _ ->. by [].
  rewrite EG -EL List.nth_error_app2 // Nat.sub_diag /=.
  case ES: (shrink fuel g B E false false) => [[[b B1] E1]| | |] //= -[<-]. exists [:: (B1, E1, i)] => //.
  have [Ii S] := HS g i ltac:(rewrite EG; apply: List.in_or_app; by right; left).
  have H1 : none1 R g by apply/(proj2 V). have H0 : ~ nsame R g by move/(proj1 V).
  have [r [r1 r2 r0]] := seen_exists S H1 H0.
  have only : forall x j, qr R B < x -> x < qr R E -> List.In j idx -> (Fs j).[x] = 0 -> x = r.
    move=> x j x1 x2 J X. have [h K NS] := rootG x j x1 x2 J X.
    have K' : (h, j) = (g, i). { have ZZ : forall H ws, List.Forall2 vok H ws -> (forall v, List.In v ws -> v = 0%N) -> ~ List.In (h, j) H.
        move=> H ws. elim=> [|y v H' ws' W _ IHF] AL //= [Ey|I]; last by apply: (IHF _ I) => w Hw; apply: AL; right.
        apply: NS. move: W. rewrite Ey => -[W _]. apply/W. apply: AL. by left.
      move: K. rewrite EG => K. case: (List.in_app_or _ _ _ K) => [Q|[Q|Q]]; [by case: (ZZ _ _ F1 Z1 Q)|by rewrite Q|by case: (ZZ _ _ F2 Z2 Q)]. }
    move: K' X => [_ ->] X. exact: seen_uniq S H1 _ _ x1 x2 r1 r2 X r0.
  have [_ [I [I2 [I3 [I4 I5]]]]] := shrink_ok S H1 (fun e : false = true => False_ind _ (Bool.diff_false_true e)) (fun e : false = true => False_ind _ (Bool.diff_false_true e)) r1 r2 r0 ES.
  apply: (iso_one (r := r)) => //.
  - move=> x x1 x2 [j J X]. exact: only x1 x2 J X.
  - rewrite /vlo /vhi /=. split; first by exists i. case: I => _ [Q|[Q1 Q2 Q3 Q4]]; [by left|right]. split=> //.
    move=> x x1 x2 [j J X]. apply: (only x j) => //; [exact: lt_le_trans I4 x1|exact: le_lt_trans x2 I5].
case EM: (mid_loop (q_mid B E) G vs) => [lm vs']. have [ML MK MS] := mid_loop_ok FV EM.
set G1 := keep G vs'.
case E1: (subuspensky_v fuel _ l B (q_mid B E)) => [l1| | |] //=.
have [Gr EGr [SR SR']] := mapM_right_ok (G := G1) Em (fun g i I => proj2 (HS g i (MS _ I))). rewrite EGr /=.
have gone : forall i, List.In i idx -> (exists g, List.In (g, i) G1) \/ forall x, qr R B < x -> x < qr R E -> x <> qr R (q_mid B E) -> (Fs i).[x] <> 0.
  move=> i I. case: (HA i I) => [[g J]|N]; last by right=> x x1 x2 _; exact: N.
  have [_ S] := HS _ _ J. case: (MK _ J) => [K|[Q|[Q1 Q2]]]; [by left; exists g|right=> x x1 x2 Nx X..].
  - have := seen_none S Q x1 x2. by rewrite X eqxx.
  - case: Nx. apply: (seen_uniq S Q1 x1 x2 m1 m2 X). move: Q2. rewrite /= (seen_half S Em) => /eqP. by [].
have AL : active (List.map (fun gi : uz * nat => (half_left gi.1, gi.2)) G1) B (q_mid B E).
  split=> //.
  - move=> g i /List.in_map_iff [[g' i'] [[<- <-] I]]. have [J S] := HS _ _ (MS _ I). split=> //. exact: (proj1 (seen_left S Em)).
  - move=> i I. case: (gone i I) => [[g J]|N].
    + left. exists (half_left g). apply/List.in_map_iff. by exists (g, i).
    + right=> x x1 x2. apply: N => //; [exact: lt_trans x2 m2|move=> Ex; by rewrite Ex ltxx in x2].
have AR : active Gr (q_mid B E) E.
  split=> //.
  - move=> g i /SR [S [g' I]]. have [J _] := HS _ _ (MS _ I). by [].
  - move=> i I. case: (gone i I) => [[g J]|N].
    + left. exact: SR' J.
    + right=> x x1 x2. apply: N => //; [exact: lt_trans m1 x1|move=> Ex; by rewrite Ex ltxx in x1].
have [l1' -> I1] := IH _ _ _ _ _ AL E1.
move=> E2. have [l2' -> I2] := IH _ _ _ _ _ AR E2.
case: ML => [[-> N]|[[g i] J [Q ->]]].
- exists (l1' ++ l2'); first by rewrite List.app_nil_r -!catA. apply: (iso_cat I1 I2) => // -[i I X].
  case: (HA i I) => [[g J]|H]; last by case: (H _ m1 m2 X).
  have := N _ J. by rewrite /= (seen_half (proj2 (HS _ _ J)) Em) X eqxx.
- exists (l1' ++ (q_mid B E, q_mid B E, i) :: l2'); first by rewrite -!catA. have [Ii S] := HS _ _ J.
  have X : (Fs i).[qr R (q_mid B E)] = 0 by move: Q; rewrite /= (seen_half S Em) => /eqP.
  apply: (iso_cat3 I1 I2) => //. by exists i.
Qed.
End V.
