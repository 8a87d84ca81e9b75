(** * Prelude: outcomes of C++ computations, arrays, 64-bit words.

    This file models no particular source file; it fixes the vocabulary used by all model files.
    - [Ok a]       the call returned [a];
    - [Throw]      the call threw a C++ exception (or a failing division signalled by GMP);
    - [UB]         the call executed C++ undefined behaviour (null/out-of-range access, signed
                   overflow, oversized shift, ...);
    - [OutOfFuel]  the model's loop bound was exhausted: it says nothing about the code. *)
From Coq Require Export ZArith NArith List Bool Lia.
From Coq Require Export ZifyBool ZifyNat ZifyN.
Export ListNotations.

Inductive outcome (A : Type) : Type :=
| Ok (a : A)
| Throw
| UB
| OutOfFuel.
Arguments Ok {A} a.
Arguments Throw {A}.
Arguments UB {A}.
Arguments OutOfFuel {A}.

Definition obind {A B} (x : outcome A) (f : A -> outcome B) : outcome B :=
  match x with
  | Ok a => f a
  | Throw => Throw
  | UB => UB
  | OutOfFuel => OutOfFuel
  end.

Notation "x <- e ;; k" := (obind e (fun x => k))
  (at level 100, e at next level, right associativity).
Notation "' p <- e ;; k" := (obind e (fun p => k))
  (at level 100, p pattern, e at next level, right associativity).

Definition omap {A B} (f : A -> B) (x : outcome A) : outcome B :=
  a <- x ;; Ok (f a).

(** Bounds-checked arrays: reading or writing outside the allocation is [UB]. *)
Definition aget {A} (l : list A) (i : nat) : outcome A :=
  match nth_error l i with Some x => Ok x | None => UB end.

Fixpoint lset {A} (l : list A) (i : nat) (x : A) : list A :=
  match l, i with
  | [], _ => []
  | _ :: t, O => x :: t
  | h :: t, S i' => h :: lset t i' x
  end.

Definition aset {A} (l : list A) (i : nat) (x : A) : outcome (list A) :=
  if Nat.ltb i (length l) then Ok (lset l i x) else UB.

(** 64-bit words as integers, with explicit wrap-around. *)
Definition two64 : Z := 2 ^ 64.
Definition two63 : Z := 2 ^ 63.
Definition wrap64 (x : Z) : Z := x mod two64.

(** Left shift of a uint64_t.  A shift count >= 64 is undefined behaviour in C++
    ([strict = true]); x86-64 takes the count modulo 64 ([strict = false]). *)
Definition shl64 (strict : bool) (x k : Z) : outcome Z :=
  if (0 <=? k)%Z && (k <? 64)%Z then Ok (wrap64 (x * 2 ^ k))
  else if strict then UB else Ok (wrap64 (x * 2 ^ (k mod 64))).
Definition shr64 (strict : bool) (x k : Z) : outcome Z :=
  if (0 <=? k)%Z && (k <? 64)%Z then Ok (x / 2 ^ k)%Z
  else if strict then UB else Ok (x / 2 ^ (k mod 64))%Z.
