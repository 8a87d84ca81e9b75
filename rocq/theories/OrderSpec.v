(** * Specification vocabulary for sorted association lists. *)
From Coq Require Import Sorting.Sorted Permutation.
From Verif Require Import Prelude Coef.

(** [gt] is a strict total order on the elements satisfying [ok]. *)
Record order_on {A} (ok : A -> Prop) (gt : A -> A -> bool) : Prop := {
  gt_irrefl : forall a, ok a -> gt a a = false;
  gt_trans : forall a b c, ok a -> ok b -> ok c -> gt a b = true -> gt b c = true -> gt a c = true;
  gt_total : forall a b, ok a -> ok b -> a = b \/ gt a b = true \/ gt b a = true;
}.

(** Keys strictly decreasing. *)
Definition desc {A B} (gt : A -> A -> bool) (l : list (A * B)) : Prop :=
  StronglySorted (fun a b => gt a b = true) (map fst l).

Definition nonzero {A B} (K : coefs B) (l : list (A * B)) : Prop :=
  Forall (fun t => snd t <> c0 K) l.

Definition all_ok {A B} (ok : A -> Prop) (l : list (A * B)) : Prop := Forall (fun t => ok (fst t)) l.

(** Normal form: admissible keys, strictly decreasing, no zero coefficient. *)
Definition normal {A B} (ok : A -> Prop) (gt : A -> A -> bool) (K : coefs B) (l : list (A * B)) : Prop :=
  all_ok ok l /\ desc gt l /\ nonzero K l.

(** Sum of the coefficients whose key satisfies [phi]. *)
Fixpoint csum {A B} (K : coefs B) (phi : A -> bool) (l : list (A * B)) : B :=
  match l with
  | [] => c0 K
  | (a, b) :: r => if phi a then cadd K b (csum K phi r) else csum K phi r
  end.

(** What [std::sort] guarantees. *)
Definition sort_ok {A B} (ok : A -> Prop) (gt : A -> A -> bool) (srt : list (A * B) -> list (A * B)) : Prop :=
  forall l, all_ok ok l ->
    Permutation l (srt l) /\
    StronglySorted (fun t u : A * B => gt (fst u) (fst t) = false) (srt l).
