(** * Ranks of ascending chains are well founded (used for the termination of charset). *)
From Coq Require Import List Arith Lia Wellfounded Relation_Operators.
Import ListNotations.

(** key of a chain element: (position of its main variable, degree in it) *)
Definition klex (a b : nat * nat) : Prop := fst a < fst b \/ (fst a = fst b /\ snd a < snd b).
Inductive klt : list (nat * nat) -> list (nat * nat) -> Prop :=
| klt_nil : forall a l, klt (a :: l) []
| klt_head : forall a b l l', klex a b -> klt (a :: l) (b :: l')
| klt_tail : forall a l l', klt l l' -> klt (a :: l) (a :: l').
(** strictly increasing positions in [k,n) *)
Inductive kval (n : nat) : nat -> list (nat * nat) -> Prop :=
| kval_nil : forall k, kval n k []
| kval_cons : forall k a l, k <= fst a < n -> kval n (Datatypes.S (fst a)) l -> kval n k (a :: l).

Lemma klex_wf : well_founded klex.
Proof.
  intros [a b]. revert b. induction a as [a IHa] using (well_founded_induction lt_wf). intros b.
  induction b as [b IHb] using (well_founded_induction lt_wf). constructor. intros [a' b'] [H|[H H']]; cbn in *.
  - apply IHa, H.
  - subst. apply IHb, H'.
Qed.
Definition kr (n k : nat) (x y : list (nat * nat)) : Prop := kval n k x /\ klt x y.
Lemma kr_wf n : forall m k, n - k <= m -> forall l, kval n k l -> Acc (kr n k) l.
Proof.
  induction m as [|m IH]; intros k Hk.
  - intros l Hl. constructor. intros y [Hy Hlt]. inversion Hy; subst; [inversion Hlt|lia].
  - assert (HC : forall a l, k <= fst a < n -> kval n (Datatypes.S (fst a)) l -> Acc (kr n k) (a :: l)).
    { intros a. induction a as [a IHa] using (well_founded_induction klex_wf). intros l Ha Hl.
      pose proof (IH (Datatypes.S (fst a)) ltac:(lia) l Hl) as A. induction A as [l _ IHl].
      constructor. intros y [Hy Hlt]. inversion Hlt; subst; inversion Hy; subst.
      - apply IHa; assumption.
      - apply IHl; [split; assumption|assumption]. }
    intros l Hl. inversion Hl; subst; [|apply HC; assumption].
    constructor. intros y [Hy Hlt]. inversion Hlt; subst. inversion Hy; subst. apply HC; assumption.
Qed.
