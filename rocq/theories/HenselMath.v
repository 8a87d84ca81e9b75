(** * Quadratic Hensel lifting: the congruences of one step (used for C52). *)
From Coq Require Import Ring.
Section Step.
Variables (R : Type) (zero one : R) (add mul sub : R -> R -> R) (opp : R -> R).
Hypothesis R_ring : ring_theory zero one add mul sub opp eq.
Add Ring Rr : R_ring.
Infix "+" := add. Infix "*" := mul. Infix "-" := sub. Notation "- x" := (opp x). Notation "0" := zero. Notation "1" := one.
(** congruence modulo m *)
Definition cg (m a b : R) : Prop := exists c, a = b + m * c.
Lemma cg_refl m a : cg m a a. Proof. exists 0. ring. Qed.
Lemma cg_sym m a b : cg m a b -> cg m b a. Proof. intros [c ->]. exists (- c). ring. Qed.
Lemma cg_trans m a b c : cg m a b -> cg m b c -> cg m a c. Proof. intros [x ->] [y ->]. exists (x + y). ring. Qed.
Lemma cg_add m a b c d : cg m a b -> cg m c d -> cg m (a + c) (b + d). Proof. intros [x ->] [y ->]. exists (x + y). ring. Qed.
Lemma cg_opp m a b : cg m a b -> cg m (- a) (- b). Proof. intros [x ->]. exists (- x). ring. Qed.
Lemma cg_sub m a b c d : cg m a b -> cg m c d -> cg m (a - c) (b - d). Proof. intros [x ->] [y ->]. exists (x - y). ring. Qed.
Lemma cg_mul m a b c d : cg m a b -> cg m c d -> cg m (a * c) (b * d). Proof. intros [x ->] [y ->]. exists (x * d + b * y + m * x * y). ring. Qed.
Lemma cg_weak m n a b : cg (m * n) a b -> cg m a b. Proof. intros [x ->]. exists (n * x). ring. Qed.
Lemma step_prod (m f g h s t b e0 e x1 q r x2 tau x3 g' x4 h' x5 : R) :
  f = g * h + m * e0 -> e = e0 + m * x1 -> s * g + t * h = 1 + m * b -> s * e = q * h + r + m * x2 -> tau = t * e + q * g + m * x3 ->
  g' = g + m * tau + m * m * x4 -> h' = h + m * r + m * m * x5 -> cg (m * m) f (g' * h').
Proof.
intros Ef Ee Eb Er Et Eg Eh.
exists (- (x1 + e * b - g * x2 + x3 * h + tau * r + x4 * h' + (g + m * tau) * x5)).
assert (H1 : r = s * e - q * h - m * x2) by (rewrite Er; ring).
assert (H2 : g * r + tau * h = e0 + m * (x1 + e * b - g * x2 + x3 * h)).
{ transitivity (e * (s * g + t * h) + m * (x3 * h - g * x2)); [rewrite H1, Et; ring|].
  rewrite Eb. transitivity (e + m * (e * b - g * x2 + x3 * h)); [ring|]. rewrite Ee at 1. ring. }
assert (H3 : g' * h' = g * h + m * (g * r + tau * h) + m * m * (tau * r + x4 * h' + (g + m * tau) * x5)).
{ rewrite Eg at 1. transitivity ((g + m * tau) * h' + m * m * x4 * h'); [ring|]. rewrite Eh at 1. ring. }
rewrite H3, H2, Ef. ring.
Qed.
Lemma step_bezout (m g h s t e0 e y1 q r y2 tau y3 s' y4 t' y5 : R) :
  1 - s * g - t * h = m * e0 -> e = e0 + m * y1 -> s * e = q * h + r + m * y2 -> tau = t * e + q * g + m * y3 ->
  s' = s + m * r + m * m * y4 -> t' = t + m * tau + m * m * y5 -> cg (m * m) (s' * g + t' * h) 1.
Proof.
intros E0 Ee Er Et Es Et'.
assert (H1 : r = s * e - q * h - m * y2) by (rewrite Er; ring).
assert (H2 : s * g + t * h = 1 - m * e0) by (rewrite <- E0; ring).
exists (y1 - e * e0 - y2 * g + y3 * h + y4 * g + y5 * h).
transitivity ((s * g + t * h) + m * (e * (s * g + t * h)) + m * m * (y3 * h - y2 * g + y4 * g + y5 * h)).
{ rewrite Es, Et', Et, H1. ring. }
rewrite H2. transitivity (1 + m * (e - e0) - m * m * e * e0 + m * m * (y3 * h - y2 * g + y4 * g + y5 * h)); [ring|].
replace (e - e0) with (m * y1) by (rewrite Ee; ring). ring.
Qed.
End Step.
