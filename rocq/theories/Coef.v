(** * Coefficient domains.

    The C++ templates are generic in the coefficient type [Tc]; the operations they use are collected
    in [coefs].  Laws are separate predicates so that each theorem states what it needs.
    Instances: [Z] for [ZZ] (number/ZZ.hh), canonical rationals for [QQ] (number/QQ.hh), residues for
    [Zp] (number.hh). *)
From Coq Require Import Ring_theory InitialRing.
From Verif Require Import Prelude.

Record coefs (C : Type) := Coefs {
  c0 : C;                       (* Tc(0), set_zero            basic.hh 59-63 *)
  c1 : C;                       (* Tc(1)                                      *)
  cadd : C -> C -> C;
  cmul : C -> C -> C;
  csub : C -> C -> C;
  copp : C -> C;
  ceqb : C -> C -> bool;        (* operator==; zore_check: c==0, basic.hh 23-30 *)
  cquo : C -> C -> C;           (* __div(q,a,b)               basic.hh 553-558 *)
  crem : C -> C -> C;           (* __div(q,r,a,b)             basic.hh 559-566 *)
}.
Arguments c0 {C} _.
Arguments c1 {C} _.
Arguments cadd {C} _ _ _.
Arguments cmul {C} _ _ _.
Arguments csub {C} _ _ _.
Arguments copp {C} _ _.
Arguments ceqb {C} _ _ _.
Arguments cquo {C} _ _ _.
Arguments crem {C} _ _ _.

Definition is0 {C} (K : coefs C) (a : C) : bool := ceqb K a (c0 K).

(** Commutative ring with decidable equality. *)
Record ring_ok {C} (K : coefs C) : Prop := {
  ring_laws : ring_theory (c0 K) (c1 K) (cadd K) (cmul K) (csub K) (copp K) (@eq C);
  ceqb_eq : forall a b, ceqb K a b = true <-> a = b;
}.

(* lets setoid rewriting find the ring laws of the coefficients in the context *)
Existing Class ring_ok.

Lemma ceqb_spec {C} (K : coefs C) (HK : ring_ok K) a b : reflect (a = b) (ceqb K a b).
Proof. apply iff_reflect. symmetry. apply (ceqb_eq K HK). Qed.

(** No zero divisors, 0 <> 1. *)
Record domain_ok {C} (K : coefs C) : Prop := {
  domain_ring : ring_ok K;
  domain_integral : forall a b, cmul K a b = c0 K -> a = c0 K \/ b = c0 K;
  domain_nontrivial : c1 K <> c0 K;
}.

(** Quotient/remainder contract used by polynomial division: division with remainder, and exact
    quotients are found.  Nothing is assumed for a zero divisor. *)
Record quorem_ok {C} (K : coefs C) : Prop := {
  quorem_eq : forall a b, b <> c0 K -> a = cadd K (cmul K (cquo K a b) b) (crem K a b);
  quorem_exact : forall a b, b <> c0 K -> cquo K (cmul K a b) b = a;
}.

(** Fields: every division is exact. *)
Record field_ok {C} (K : coefs C) : Prop := {
  field_domain : domain_ok K;
  field_quo : forall a b, b <> c0 K -> cmul K (cquo K a b) b = a;
  field_rem : forall a b, b <> c0 K -> crem K a b = c0 K;
}.

(** ZZ values.  [cquo]/[crem] are what polynomial division uses, the specialisations of [__div] for ZZ:
    number.hh 28-37, floor division (ZZ::fdiv_q, ZZ::fdiv_qr). *)
Definition Zc : coefs Z :=
  Coefs Z 0%Z 1%Z Z.add Z.mul Z.sub Z.opp Z.eqb Z.div Z.modulo.

Lemma Zc_domain : domain_ok Zc.
Proof.
  split.
  - split; [exact InitialRing.Zth|]. intros a b. apply Z.eqb_eq.
  - intros a b H. cbn in *. apply Z.mul_eq_0 in H. exact H.
  - discriminate.
Qed.
Lemma Zc_quorem : quorem_ok Zc.
Proof.
  split; cbn; intros a b Hb.
  - rewrite Z.mul_comm. apply Z.div_mod, Hb.
  - apply Z.div_mul, Hb.
Qed.
