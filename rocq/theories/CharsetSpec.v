(** * Specification: ascending chains and pseudo-reduction (Ritt, Wu).  About mathematical polynomials only. *)
From Verif Require Import Prelude Coef Spec SpecOps.
Local Open Scope N_scope.

Section S.
Context {C : Type} (K : coefs C) (vo : var -> var -> bool).
(** [vo x y = true]: [x] is the larger variable.  [main c x d]: [x] is the largest variable of [c] and [d > 0] its
    degree in [c]. *)
Definition main (c : rpoly C) (x : var) (d : N) : Prop :=
  deg_is K c x d /\ 0 < d /\ forall w, occurs K c w -> w = x \/ vo x w = true.
(** An ascending chain: the main variables strictly increase and every member has in the main variable of each
    earlier member a lower degree than that member. *)
Definition ascending (cs : list (rpoly C)) : Prop :=
  forall i j c c', (i < j)%nat -> nth_error cs i = Some c -> nth_error cs j = Some c' ->
  exists x d x' d', main c x d /\ main c' x' d' /\ vo x' x = true /\ deg_lt K c' x d.
(** Products of initials (leading coefficients in the main variable) of members of [cs]. *)
Inductive initials (cs : list (rpoly C)) : rpoly C -> Prop :=
| in_one : initials cs (r1 K)
| in_mul : forall c x d p, In c cs -> main c x d -> initials cs p -> initials cs (rmul K (rcoeff K x d c) p)
| in_eq : forall p q, req K p q -> initials cs p -> initials cs q.
(** [p] pseudo-reduces to [r] by [cs]: for some product [I] of initials, I*p - r is in the ideal of [cs], and r has
    lower degree than every member in the member's main variable. *)
Definition pseudo_reduces (cs : list (rpoly C)) (p r : rpoly C) : Prop :=
  (exists i, initials cs i /\ ideal K cs (rsub K (rmul K i p) r)) /\
  forall c x d, In c cs -> main c x d -> deg_lt K r x d.
End S.
