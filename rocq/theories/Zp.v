(** * Model of the prime-field type Zp (number.hh 71-350).

    uint64_t values are integers in [0, 2^64) with explicit wrap-around ([wrap64]); unsigned __int128
    values are integers modulo 2^128.  The object's [_p], [_ninv], [_norm] are passed explicitly.
    Assertions are not modelled ([_p] equal on both sides and non-zero is assumed by the interface). *)
From Verif Require Import Prelude.
Local Open Scope Z_scope.

Definition wrap128 (x : Z) : Z := x mod 2 ^ 128.

(** number.hh 97-103 [__preinvert_limb] *)
Definition preinvert_limb (pn : Z) : Z :=
  let num := Z.lor (wrap128 (Z.shiftl (two64 - 1 - pn) 64)) (two64 - 1) in
  wrap64 (num / pn).
(** number.hh 105-112 [__precompute]: [__builtin_clzll(p)] is 63 - log2 p *)
Definition norm_of (p : Z) : Z := 63 - Z.log2 p.
Definition ninv_of (p : Z) : Z := preinvert_limb (wrap64 (Z.shiftl p (norm_of p))).

(** number.hh 114-132 [__nmod_mul] *)
Definition nmod_mul (p a b : Z) : Z :=
  let norm := norm_of p in
  let ninv := ninv_of p in
  let pn := wrap64 (Z.shiftl p norm) in
  let a_shifted := wrap64 (Z.shiftl a norm) in
  let prod := wrap128 (a_shifted * b) in
  let hi := wrap64 (Z.shiftr prod 64) in
  let lo := wrap64 prod in
  let qm := wrap128 (hi * ninv) in
  let q1 := wrap64 (Z.shiftr qm 64) in
  let q0 := wrap64 qm in
  let q0 := wrap64 (q0 + lo) in
  let q1 := wrap64 (q1 + wrap64 (hi + (if q0 <? lo then 1 else 0))) in
  let r := wrap64 (lo - wrap64 (wrap64 (q1 + 1) * pn)) in
  let r := if q0 <? r then wrap64 (r + pn) else r in
  let r := if pn <=? r then wrap64 (r - pn) else r in
  Z.shiftr r norm.

(** number.hh 72-86 [inv_prime]: loop state (a, b, s1, s2) *)
Fixpoint inv_loop (fuel : nat) (p a b s1 s2 : Z) : outcome Z :=
  match fuel with
  | O => OutOfFuel
  | S f =>
      if b =? 0 then UB   (* a % 0 *)
      else
        let c := a mod b in
        if c =? 0 then Ok s2
        else
          let q := a / b in
          let sq := wrap64 (wrap128 (s2 * q) mod p) in
          let s3 := if sq <=? s1 then wrap64 (s1 - sq) else wrap64 (wrap64 (p - sq) + s1) in
          inv_loop f p b c s2 s3
  end.
(** 130 iterations always suffice (proved) *)
Definition inv_prime (i p : Z) : outcome Z := inv_loop 130 p p i 0 1.

(** number.hh 141 constructor from uint64_t *)
Definition zp_of_u64 (i p : Z) : Z := i mod p.
(** number.hh 142-148 constructor from int64_t, also 162-169 operator=(int64_t) *)
Definition zp_of_i64 (i p : Z) : Z :=
  let abs_i := if 0 <=? i then i else wrap64 (- wrap64 i) in
  let r := abs_i mod p in
  if (r =? 0) || (0 <? i) then r else p - r.
(** number.hh 185-190 *)
Definition zp_neg (p a : Z) : Z := if a =? 0 then 0 else wrap64 (p - a).
(** number.hh 192-211 *)
Definition zp_add (p a b : Z) : Z :=
  let neg := wrap64 (p - a) in
  if b <? neg then wrap64 (a + b) else wrap64 (b - neg).
(** number.hh 212-223 *)
Definition zp_sub (p a b : Z) : Z := if b <=? a then wrap64 (a - b) else wrap64 (wrap64 (p - b) + a).
(** number.hh 224-241 *)
Definition zp_mul (p a b : Z) : Z := nmod_mul p a b.
(** number.hh 242-253, 156-161 [inv] *)
Definition zp_div (p a b : Z) : outcome Z := i <- inv_prime b p ;; Ok (nmod_mul p a i).
Definition zp_inv (p a : Z) : outcome Z := inv_prime a p.
(** number.hh 254-258 *)
Definition zp_eqb (a b : Z) : bool := a =? b.

(** number.hh 324-337 [pow(Zp, int64_t)] *)
Fixpoint zp_pow_loop (fuel : nat) (p o z i : Z) : outcome Z :=
  match fuel with
  | O => OutOfFuel
  | S f =>
      if 0 <? i then
        let o' := if Z.rem i 2 =? 0 then o else zp_mul p o z in
        let i' := i / 2 in
        zp_pow_loop f p o' (if i' =? 0 then z else zp_mul p z z) i'
      else Ok o
  end.
Definition zp_pow (p z i : Z) : outcome Z := zp_pow_loop 64 p (zp_of_i64 1 p) z i.
