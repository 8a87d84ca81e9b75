(** * Specification vocabulary for ideals and Groebner bases. *)
From Verif Require Import Prelude Coef Spec Mono MonoStruct Poly QQ QQProofs.

Section S.
Context {C : Type}.
(** [m] is the leading monomial of the vector [p] (terms are stored in decreasing order). *)
Definition leads (m : mono) (p : poly C) : Prop := exists c r, p = (m, c) :: r.
(** The ideal generated by a list of polynomials, as a set of mathematical polynomials. *)
Definition gen_ideal (K : coefs C) (G : list (poly C)) : rpoly C -> Prop := ideal K (map (fun g => graw sm g) G).
(** No monomial of [r] is a multiple of the leading monomial of an element of [G]. *)
Definition reduced_wrt (G : list (poly C)) (r : poly C) : Prop :=
  forall t g m, In t r -> In g G -> leads m g -> ~ mdivides (sm m) (sm (fst t)).
(** Leading coefficient 1. *)
Definition monic_poly (K : coefs C) (p : poly C) : Prop := exists m r, p = (m, c1 K) :: r.
(** No monomial of an element is a multiple of the leading monomial of another element. *)
Definition interreduced (G : list (poly C)) : Prop :=
  forall G1 g G2, G = G1 ++ g :: G2 -> reduced_wrt (G1 ++ G2) g.
End S.

(** An integer polynomial read with rational coefficients. *)
Definition qpoly (p : rpoly Z) : rpoly qqc := map (fun t => (fst t, qqc_int (snd t))) p.
(** The ideal of QQ[x...] generated by integer polynomials. *)
Definition q_ideal (G : list (poly Z)) : rpoly qqc -> Prop := ideal QQc (map (fun g => qpoly (graw sm g)) G).
(** Primitive with positive leading coefficient. *)
Definition primitive_pos (p : poly Z) : Prop :=
  (exists m c r, p = (m, c) :: r /\ (0 < c)%Z) /\ forall d, (forall t, In t p -> (d | snd t)%Z) -> (d | 1)%Z.
