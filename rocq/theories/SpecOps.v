(** * Specification: coefficient extraction, derivative and substitution of mathematical polynomials.

    Each is the linear extension [rlin f] of a map [f] from monomials to polynomials. *)
From Verif Require Import Prelude Coef Spec.
Local Open Scope N_scope.

(** The monomial without the variable [v]. *)
Definition mdrop (v : var) (m : smono) : smono := filter (fun t => negb (N.eqb (fst t) v)) m.

Section SpecOps.
Context {C : Type} (K : coefs C).

(** n times 1. *)
Fixpoint cnat (n : nat) : C := match n with O => c0 K | S n' => cadd K (c1 K) (cnat n') end.

(** Linear extension: sum over the terms c*m of c*f(m). *)
Definition rlin (f : smono -> rpoly C) (p : rpoly C) : rpoly C :=
  flat_map (fun t => map (fun u => (fst u, cmul K (snd t) (snd u))) (f (fst t))) p.

(** c * p. *)
Definition rscale (c : C) (p : rpoly C) : rpoly C := map (fun t => (fst t, cmul K c (snd t))) p.

(** The monomial [m] as a polynomial. *)
Definition rmono (m : smono) : rpoly C := [(m, c1 K)].

(** Coefficient of v^d, a polynomial in the other variables. *)
Definition rcoeff (v : var) (d : N) : rpoly C -> rpoly C :=
  rlin (fun m => if N.eqb (exp m v) d then [(mdrop v m, c1 K)] else []).

(** Formal partial derivative. *)
Definition rderiv (v : var) : rpoly C -> rpoly C :=
  rlin (fun m => [((v, exp m v - 1) :: mdrop v m, cnat (N.to_nat (exp m v)))]).

(** Substitution of coefficients for the variables [v] with [rho v = Some c]. *)
Definition msub (rho : var -> option C) (m : smono) : smono :=
  filter (fun t => match rho (fst t) with None => true | Some _ => false end) m.
Definition msubc (rho : var -> option C) (m : smono) : C :=
  meval K (fun v => match rho v with Some c => c | None => c1 K end) m.
Definition rsubst (rho : var -> option C) : rpoly C -> rpoly C :=
  rlin (fun m => [(msub rho m, msubc rho m)]).

(** [p] has degree at most / less than [d] in [v]. *)
Definition deg_le (p : rpoly C) (v : var) (d : N) : Prop := forall m, coef K p m <> c0 K -> exp m v <= d.
Definition deg_lt (p : rpoly C) (v : var) (d : N) : Prop := forall m, coef K p m <> c0 K -> exp m v < d.
(** [d] is the degree of [p] in [v] (0 for the zero polynomial). *)
Definition deg_is (p : rpoly C) (v : var) (d : N) : Prop :=
  deg_le p v d /\ (d = 0 \/ exists m, coef K p m <> c0 K /\ exp m v = d).
(** [v] occurs in [p]. *)
Definition occurs (p : rpoly C) (v : var) : Prop := exists m, coef K p m <> c0 K /\ exp m v <> 0.

(** Pseudo-division with respect to [v]: lc^n * G = Q*F + R and deg_v R < deg_v F, where lc is the leading
    coefficient of F in [v] and n <= max(deg_v G - deg_v F + 1, 0), with equality when [full] is set.
    (deg_v F = 0 forces R = 0.)  N subtraction is truncated at 0. *)
Definition pseudo_div (v : var) (full : bool) (G F Q R : rpoly C) : Prop :=
  exists dG dF n, deg_is G v dG /\ deg_is F v dF /\ deg_lt R v dF /\
    N.of_nat n <= dG + 1 - dF /\ (full = true -> N.of_nat n = dG + 1 - dF) /\
    req K (rmul K (rpow K (rcoeff v dF F) n) G) (radd (rmul K Q F) R).
End SpecOps.
