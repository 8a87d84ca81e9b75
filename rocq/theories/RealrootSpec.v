(** * Specification of C47: the value of a polynomial at a point of a real closed field, and the multiplicity of a root. *)
From Verif Require Import Prelude Mono.
From mathcomp Require Import all_ssreflect all_algebra ssrZ polyrcf realalg.
From Verif Require Import Props_Real.
Import Order.TTheory GRing.Theory Num.Theory.
Set Implicit Arguments.
Unset Strict Implicit.
Local Open Scope ring_scope.
(** the value of f with x put for every variable (used for polynomials in one variable) *)
Definition polyvalue (R : rcfType) (f : Mono.poly Z) (x : R) : R := \sum_(t <- f) intv R t.2 * \prod_(u <- md t.1) x ^+ Z.to_nat u.2.
(** r is a root of multiplicity n (n = 0: not a root): f is (y - r)^n q with q non-zero at r *)
Definition root_multiplicity (R : rcfType) (f : Mono.poly Z) (r : R) (n : nat) : Prop :=
  exists2 q : {poly R}, q.[r] <> 0 & forall y, polyvalue f y = (y - r) ^+ n * q.[y].
