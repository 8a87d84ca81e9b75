(** * Almost-full relations and Dickson's lemma (used for the termination of the Groebner basis computation).
      Pure mathematics: models no source file. *)
From Coq Require Import List Arith NArith Lia.
Import ListNotations.

Inductive af {X} (R : X -> X -> Prop) : Prop :=
| af_full : (forall x y, R x y) -> af R
| af_sup : (forall a, af (fun x y => R x y \/ R a x)) -> af R.

Lemma af_mono {X} (R T : X -> X -> Prop) : af R -> (forall x y, R x y -> T x y) -> af T.
Proof.
  intros H. revert T. induction H as [R H|R H IH]; intros T I.
  - apply af_full. auto.
  - apply af_sup. intros a. apply (IH a). intros x y [r|r]; auto.
Qed.

Lemma af_nullary {X} (A B : X -> X -> Prop) : af A -> af B -> forall (C : X -> X -> Prop) (P Q : Prop),
  (forall x y, A x y -> C x y \/ P) -> (forall x y, B x y -> C x y \/ Q) -> af (fun x y => C x y \/ (P /\ Q)).
Proof.
  intros HA HB. induction HA as [A F|A F IH]; intros C P Q IA IB.
  - apply (af_mono B); [exact HB|]. intros x y b. destruct (IA x y (F x y)), (IB x y b); tauto.
  - apply af_sup. intros a.
    apply (af_mono (fun x y => (C x y \/ C a x) \/ (P /\ Q))); [|intros x y [[c|c]|c]; tauto].
    apply (IH a).
    + intros x y [r|r]; apply IA in r; tauto.
    + intros x y r. apply IB in r; tauto.
Qed.

Lemma af_unary {X} (A : X -> X -> Prop) : af A -> forall B, af B -> forall (C : X -> X -> Prop) (P Q : X -> Prop),
  (forall x y, A x y -> C x y \/ P x) -> (forall x y, B x y -> C x y \/ Q x) -> af (fun x y => C x y \/ (P x /\ Q x)).
Proof.
  intros HA. induction HA as [A F|A F IHA]; intros B HB.
  - intros C P Q IA IB. apply (af_mono B); [exact HB|]. intros x y b. destruct (IA x y (F x y)), (IB x y b); tauto.
  - assert (HA : af A) by (apply af_sup, F).
    induction HB as [B FB|B FB IHB]; intros C P Q IA IB.
    + apply (af_mono A); [exact HA|]. intros x y a. destruct (IA x y a), (IB x y (FB x y)); tauto.
    + assert (HB : af B) by (apply af_sup, FB). apply af_sup. intros a.
      assert (H1 : af (fun x y => (C x y \/ C a x \/ P a) \/ (P x /\ Q x))).
      { apply (IHA a B HB); intros x y r; [destruct r as [r|r]; apply IA in r; tauto|apply IB in r; tauto]. }
      assert (H2 : af (fun x y => (C x y \/ C a x \/ Q a) \/ (P x /\ Q x))).
      { apply (IHB a); intros x y r; [apply IA in r; tauto|destruct r as [r|r]; apply IB in r; tauto]. }
      eapply af_mono.
      * apply (af_nullary _ _ H1 H2 (fun x y => C x y \/ C a x \/ (P x /\ Q x)) (P a) (Q a)); cbv beta; intros x y; tauto.
      * cbv beta; intros x y; tauto.
Qed.

Theorem af_inter {X} (A : X -> X -> Prop) : af A -> forall B, af B -> af (fun x y => A x y /\ B x y).
Proof.
  intros HA. induction HA as [A F|A F IHA]; intros B HB.
  - apply (af_mono B); [exact HB|]. auto.
  - assert (HA : af A) by (apply af_sup, F).
    induction HB as [B FB|B FB IHB].
    + apply (af_mono A); [exact HA|]. auto.
    + assert (HB : af B) by (apply af_sup, FB). apply af_sup. intros a.
      apply (af_unary _ (IHA a B HB) _ (IHB a) (fun x y => A x y /\ B x y) (fun x => A a x) (fun x => B a x)); cbv beta; intros x y; tauto.
Qed.

Lemma af_comap {X Y} (f : Y -> X) (R : X -> X -> Prop) : af R -> af (fun x y => R (f x) (f y)).
Proof.
  intros H. induction H as [R H|R H IH]; [apply af_full; auto|]. apply af_sup. intros a. apply (IH (f a)).
Qed.

Lemma af_le : af N.le.
Proof.
  assert (G : forall n : nat, af (fun x y => (x <= y)%N \/ (N.of_nat n <= x)%N)).
  { induction n as [|n IH]; [apply af_full; lia|]. apply af_sup. intros b.
    destruct (N.le_gt_cases (N.of_nat (S n)) b) as [H|H]; [apply af_full; lia|].
    apply (af_mono _ _ IH). intros x y. lia. }
  apply af_sup. intros a. apply (af_mono _ _ (G (N.to_nat a))). intros x y. lia.
Qed.

(** Dickson: pointwise comparison on finitely many indices. *)
Theorem dickson {X} (f : X -> N -> N) (vs : list N) : af (fun x y => forall v, In v vs -> (f x v <= f y v)%N).
Proof.
  induction vs as [|v vs IH]; [apply af_full; intros x y v []|].
  eapply af_mono.
  - apply (af_inter _ (af_comap (fun x => f x v) _ af_le) _ IH).
  - intros x y [H1 H2] w [<-|Hw]; auto.
Qed.

(** Sequences in which no element is above an earlier one cannot be extended forever. *)
Section Bad.
Context {X : Type} (R : X -> X -> Prop).
Definition bad_ext (l' l : list X) : Prop := exists m, l' = m :: l /\ forall u, In u l -> ~ R u m.

Lemma af_bad_acc (T : X -> X -> Prop) : af T -> forall l, (forall x y, T x y -> R x y \/ exists u, In u l /\ R u x) ->
  Acc bad_ext l.
Proof.
  intros H. induction H as [T H|T H IH]; intros l I.
  - constructor. intros l1 (m & -> & Hm). constructor. intros l2 (m2 & -> & Hm2). exfalso.
    destruct (I m m2 (H m m2)) as [r|(u & Hu & r)]; [apply (Hm2 m (or_introl eq_refl) r)|apply (Hm u Hu r)].
  - constructor. intros l1 (m & -> & Hm). apply (IH m). intros x y [t|t].
    + destruct (I x y t) as [r|(u & Hu & r)]; [left; exact r|right; exists u; split; [right|]; assumption].
    + destruct (I m x t) as [r|(u & Hu & r)]; [right; exists m; split; [left; reflexivity|exact r]|destruct (Hm u Hu r)].
Qed.

Theorem bad_acc : af R -> forall l, Acc bad_ext l.
Proof. intros H l. apply (af_bad_acc R H). auto. Qed.
End Bad.
