(** * Specification vocabulary for the number types (C01-C05). *)
From Coq Require Import QArith.
From Verif Require Import Prelude ZZ QQ.
Local Open Scope Z_scope.

(** ** ZZ *)
(** Specification side: the integer a ZZ denotes, and the canonical representation. *)
Definition zval (a : zz) : Z := match a with Small x => x | Big x => x end.
Definition zz_ok (a : zz) : Prop :=
  match a with
  | Small x => - 2 ^ 63 <= x <= 2 ^ 63 - 1
  | Big x => ~ (- 2 ^ 63 <= x <= 2 ^ 63 - 1)
  end.
(** The outcome is the canonical representation of [x]. *)
Definition is_zz (o : outcome zz) (x : Z) : Prop := exists r, o = Ok r /\ zz_ok r /\ zval r = x.

(** Safe use of [neg64]: lenient mode, or not INT64_MIN. *)
Definition negsafe (strict : bool) (a : zz) : Prop := strict = false \/ zval a <> - 2 ^ 63.

(** The outcome is a memory that holds the canonical representation of [x] at [d] and is otherwise as before. *)
Definition stores (o : outcome mem) (m : mem) (d : nat) (x : Z) : Prop :=
  exists m', o = Ok m' /\ zz_ok (m' d) /\ zval (m' d) = x /\ forall e, e <> d -> m' e = m e.

(** Two results. *)
Definition stores2 (o : outcome mem) (m : mem) (q r : nat) (x y : Z) : Prop :=
  exists m', o = Ok m' /\ zz_ok (m' q) /\ zval (m' q) = x /\ zz_ok (m' r) /\ zval (m' r) = y /\
    forall e, e <> q -> e <> r -> m' e = m e.

(** ** QQ *)
(** Specification: the rational a QQ denotes, and lowest terms with positive denominator. *)
Definition qval (a : qq) : Q := Qmake (qnum a) (Z.to_pos (qden a)).
Definition qq_ok (a : qq) : Prop := 0 < qden a /\ Z.gcd (qnum a) (qden a) = 1.


(** ** Zp *)
(** A modulus the library accepts. *)
Definition modulus (p : Z) : Prop := 2 <= p < 2 ^ 64.
Definition residue (p a : Z) : Prop := 0 <= a < p.

