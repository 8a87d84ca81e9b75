(** * Specification: mathematical multivariate polynomials.

    Independent of the CLPoly model.  A monomial is any list of (variable, exponent) pairs, read as
    their product; a polynomial is any list of (monomial, coefficient) pairs, read as their sum.
    Two polynomials are mathematically equal ([req]) iff they have the same total coefficient on
    every monomial. *)
From Coq Require Import Ring_theory.
From Verif Require Import Prelude Coef.
Local Open Scope N_scope.

Notation var := N (only parsing).
Definition smono := list (var * N).

(** Exponent of [v] in the monomial. *)
Fixpoint exp (m : smono) (v : var) : N :=
  match m with
  | [] => 0
  | (w, e) :: m' => (if N.eqb w v then e else 0) + exp m' v
  end.

Definition meq (m1 m2 : smono) : Prop := forall v, exp m1 v = exp m2 v.

Definition meqb (m1 m2 : smono) : bool :=
  forallb (fun v => N.eqb (exp m1 v) (exp m2 v)) (map fst m1 ++ map fst m2).

Definition mdivides (m1 m2 : smono) : Prop := forall v, exp m1 v <= exp m2 v.

Definition rpoly (C : Type) := list (smono * C).

Section Poly.
Context {C : Type} (K : coefs C).

(** Total coefficient on the monomial [m]. *)
Fixpoint coef (p : rpoly C) (m : smono) : C :=
  match p with
  | [] => c0 K
  | (m', c) :: p' => if meqb m' m then cadd K c (coef p' m) else coef p' m
  end.

Definition req (p q : rpoly C) : Prop := forall m, coef p m = coef q m.

Definition rconst (c : C) : rpoly C := [([], c)].
Definition r0 : rpoly C := [].
Definition r1 : rpoly C := rconst (c1 K).
Definition rvar (v : var) : rpoly C := [([(v, 1)], c1 K)].
Definition radd (p q : rpoly C) : rpoly C := p ++ q.
Definition ropp (p : rpoly C) : rpoly C := map (fun t => (fst t, copp K (snd t))) p.
Definition rsub (p q : rpoly C) : rpoly C := radd p (ropp q).
Definition rmul (p q : rpoly C) : rpoly C :=
  flat_map (fun t => map (fun u => (fst t ++ fst u, cmul K (snd t) (snd u))) q) p.
Fixpoint rpow (p : rpoly C) (n : nat) : rpoly C :=
  match n with O => r1 | S n' => rmul p (rpow p n') end.

(** [rdivides g f]: g divides f in the polynomial ring. *)
Definition rdivides (g f : rpoly C) : Prop := exists q, req f (rmul q g).

(** Membership of [f] in the ideal generated by [gs]. *)
Inductive ideal (gs : list (rpoly C)) : rpoly C -> Prop :=
| ideal_gen : forall g, In g gs -> ideal gs g
| ideal_0 : ideal gs r0
| ideal_add : forall p q, ideal gs p -> ideal gs q -> ideal gs (radd p q)
| ideal_mul : forall a p, ideal gs p -> ideal gs (rmul a p)
| ideal_eq : forall p q, req p q -> ideal gs p -> ideal gs q.

(** Powers of coefficients and value of a monomial / polynomial at a point. *)
Fixpoint cpow (a : C) (n : nat) : C :=
  match n with O => c1 K | S n' => cmul K a (cpow a n') end.
Fixpoint meval (rho : var -> C) (m : smono) : C :=
  match m with
  | [] => c1 K
  | (v, e) :: m' => cmul K (cpow (rho v) (N.to_nat e)) (meval rho m')
  end.
Fixpoint reval (rho : var -> C) (p : rpoly C) : C :=
  match p with
  | [] => c0 K
  | (m, c) :: p' => cadd K (cmul K c (meval rho m)) (reval rho p')
  end.
End Poly.
