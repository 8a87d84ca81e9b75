(** * Model of the integer type ZZ (number/ZZ.hh).

    A ZZ holds either an inline int64_t ([Small]) or a GMP integer ([Big]).  GMP integers are modelled
    as exact integers: [mpz_add], [mpz_tdiv_q], ... are [Z.add], [Z.quot], ... (GMP is trusted), with
    [unsigned long] arguments reduced modulo 2^64.  A GMP division by zero, which GMP signals by an
    exception, is [Throw].  [long] is 64 bits (LP64): the [sizeof(long) == 8] branches.
    Memory management (new/delete of the mpz) and the stale value of [_val] while the value is big are
    not modelled.

    [strict = true]: negating INT64_MIN as an int64_t is undefined behaviour, as the C++ standard says;
    [strict = false]: it wraps around to INT64_MIN, as on the usual hardware. *)
From Verif Require Import Prelude.
Local Open Scope Z_scope.

Definition i64min : Z := - two63.
Definition i64max : Z := two63 - 1.
Definition fits64 (x : Z) : bool := (i64min <=? x) && (x <=? i64max).

(** ZZ.hh 74-77 *)
Inductive zz := Small (v : Z) | Big (v : Z).

(** ZZ.hh 94-131 [_fits_si], [_demote_if_small] *)
Definition demote (x : Z) : zz := if fits64 x then Small x else Big x.

(** [-x] on int64_t *)
Definition neg64 (strict : bool) (x : Z) : outcome Z :=
  if x =? i64min then (if strict then UB else Ok i64min) else Ok (- x).
(** [static_cast<unsigned long>(x)] *)
Definition to_u64 (x : Z) : Z := x mod two64.
(** [__builtin_add_overflow] and friends, 128-bit range check *)
Definition i128_ok (x : Z) : bool := (- 2 ^ 127 <=? x) && (x <? 2 ^ 127).
Definition i128 (x : Z) : outcome Z := if i128_ok x then Ok x else UB.

(** ZZ.hh 146-173: constructor from [unsigned long] *)
Definition zz_of_u64 (v : Z) : zz := if v <=? i64max then Small v else Big v.
(** ZZ.hh 192-199: constructor from [mpz_srcptr] *)
Definition zz_of_mpz (v : Z) : zz := demote v.

(** ZZ.hh 286-300 [operator==] (mpz_cmp_si, mpz_cmp compare values) *)
Definition zz_eqb (a b : zz) : bool :=
  match a, b with
  | Small x, Small y => x =? y
  | Small x, Big y => Z.eqb y x
  | Big x, Small y => Z.eqb x y
  | Big x, Big y => x =? y
  end.
(** ZZ.hh 303-313 [operator<] *)
Definition zz_ltb (a b : zz) : bool :=
  match a, b with
  | Small x, Small y => x <? y
  | Small x, Big y => match Z.compare y x with Gt => true | _ => false end
  | Big x, Small y => match Z.compare x y with Lt => true | _ => false end
  | Big x, Big y => match Z.compare x y with Lt => true | _ => false end
  end.
(** ZZ.hh 324-354 state queries *)
Definition zz_is_zero (a : zz) : bool := match a with Small x => x =? 0 | Big x => Z.sgn x =? 0 end.
Definition zz_is_one (a : zz) : bool := match a with Small x => x =? 1 | Big x => x =? 1 end.
Definition zz_is_odd (a : zz) : bool :=
  match a with Small x => negb (Z.land x 1 =? 0) | Big x => Z.odd x end.
Definition zz_sgn (a : zz) : Z :=
  match a with Small x => if 0 <? x then 1 else if x <? 0 then -1 else 0 | Big x => Z.sgn x end.

(** ZZ.hh 357-374 unary minus *)
Definition zz_neg (a : zz) : zz :=
  match a with
  | Small x => if x =? i64min then Big (- x) else Small (- x)
  | Big x => demote (- x)
  end.

(** [mpz_add_ui]/[mpz_sub_ui] with an int64_t: ZZ.hh 387-390 and the same shape at 392-396, 398-401,
    421-424, 428-432, 538-541, 556-559 *)
Definition add_si (strict : bool) (x v : Z) : outcome Z :=
  if 0 <=? v then Ok (x + to_u64 v) else n <- neg64 strict v ;; Ok (x - to_u64 n).
Definition sub_si (strict : bool) (x v : Z) : outcome Z :=
  if 0 <=? v then Ok (x - to_u64 v) else n <- neg64 strict v ;; Ok (x + to_u64 n).

(** ZZ.hh 377-408 [operator+] *)
Definition zz_add (strict : bool) (a b : zz) : outcome zz :=
  match a, b with
  | Small x, Small y =>
      if fits64 (x + y) then Ok (Small (x + y)) else omap demote (add_si strict x y)
  | Small x, Big y => omap demote (add_si strict y x)
  | Big x, Small y => omap demote (add_si strict x y)
  | Big x, Big y => Ok (demote (x + y))
  end.
(** ZZ.hh 411-438 [operator-] *)
Definition zz_sub (strict : bool) (a b : zz) : outcome zz :=
  match a, b with
  | Small x, Small y =>
      if fits64 (x - y) then Ok (Small (x - y)) else omap demote (sub_si strict x y)
  | Small x, Big y => Ok (demote (x - y))
  | Big x, Small y => omap demote (sub_si strict x y)
  | Big x, Big y => Ok (demote (x - y))
  end.
(** ZZ.hh 441-467 [operator*]; the product is formed in __int128 *)
Definition zz_mul (a b : zz) : outcome zz :=
  match a, b with
  | Small x, Small y =>
      r <- i128 (x * y) ;;
      if fits64 r then Ok (Small r) else Ok (demote (x * y))
  | Small x, Big y => Ok (demote (y * x))
  | Big x, Small y => Ok (demote (x * y))
  | Big x, Big y => Ok (demote (x * y))
  end.

(** GMP divisions: a zero divisor raises GMP's division-by-zero exception. *)
Definition gdiv (f : Z -> Z -> Z) (x y : Z) : outcome Z := if y =? 0 then Throw else Ok (f x y).

(** ZZ.hh 470-500 [operator/] *)
Definition zz_div (a b : zz) : outcome zz :=
  match a, b with
  | Small x, Small y =>
      if y =? 0 then Throw
      else if (x =? i64min) && (y =? -1) then Ok (Big (- x))
      else Ok (Small (Z.quot x y))
  | Small x, Big y => omap demote (gdiv Z.quot x y)
  | Big x, Small y => omap demote (gdiv Z.quot x y)
  | Big x, Big y => omap demote (gdiv Z.quot x y)
  end.
(** ZZ.hh 503-526 [operator%] *)
Definition zz_mod (a b : zz) : outcome zz :=
  match a, b with
  | Small x, Small y =>
      if y =? 0 then Throw
      else if (x =? i64min) && (y =? -1) then Ok (Small 0)
      else Ok (Small (Z.rem x y))
  | Small x, Big y => omap demote (gdiv Z.rem x y)
  | Big x, Small y => omap demote (gdiv Z.rem x y)
  | Big x, Big y => omap demote (gdiv Z.rem x y)
  end.

(** ** In-place operations

    The operands are objects in memory and may be the same object, so these are modelled on a memory
    [mem] from addresses to values. *)
Definition mem := nat -> zz.
Definition upd (m : mem) (d : nat) (v : zz) : mem := fun x => if Nat.eqb x d then v else m x.

Definition is_small (a : zz) : bool := match a with Small _ => true | Big _ => false end.
(** The number stored, whatever the representation (reading the mpz, or [_mpz_set_s64] into a temporary). *)
Definition raw (a : zz) : Z := match a with Small x => x | Big x => x end.

(** ZZ.hh 88-91, 133-136 [_promote], [_ensure_mpz] *)
Definition ensure (m : mem) (d : nat) : mem := upd m d (Big (raw (m d))).

(** ZZ.hh 529-547 [operator+=] *)
Definition zz_add_assign (strict : bool) (m : mem) (d b : nat) : outcome mem :=
  if is_small (m d) && is_small (m b) && fits64 (raw (m d) + raw (m b))
  then Ok (upd m d (Small (raw (m d) + raw (m b))))
  else
    let m1 := ensure m d in
    r <- (if is_small (m1 b) then add_si strict (raw (m1 d)) (raw (m1 b)) else Ok (raw (m1 d) + raw (m1 b))) ;;
    Ok (upd m1 d (demote r)).
(** ZZ.hh 549-567 [operator-=] *)
Definition zz_sub_assign (strict : bool) (m : mem) (d b : nat) : outcome mem :=
  if is_small (m d) && is_small (m b) && fits64 (raw (m d) - raw (m b))
  then Ok (upd m d (Small (raw (m d) - raw (m b))))
  else
    let m1 := ensure m d in
    r <- (if is_small (m1 b) then sub_si strict (raw (m1 d)) (raw (m1 b)) else Ok (raw (m1 d) - raw (m1 b))) ;;
    Ok (upd m1 d (demote r)).
(** ZZ.hh 569-594 [operator*=] *)
Definition zz_mul_assign (m : mem) (d b : nat) : outcome mem :=
  fast <- (if is_small (m d) && is_small (m b)
           then r <- i128 (raw (m d) * raw (m b)) ;; Ok (if fits64 r then Some r else None)
           else Ok None) ;;
  match fast with
  | Some r => Ok (upd m d (Small r))
  | None => let m1 := ensure m d in Ok (upd m1 d (demote (raw (m1 d) * raw (m1 b))))
  end.
(** ZZ.hh 621-655 [addmul] *)
Definition zz_addmul (m : mem) (d a b : nat) : outcome mem :=
  fast <- (if is_small (m d) && is_small (m a) && is_small (m b)
           then p <- i128 (raw (m a) * raw (m b)) ;; s <- i128 (raw (m d) + p) ;;
                Ok (if fits64 s then Some s else None)
           else Ok None) ;;
  match fast with
  | Some r => Ok (upd m d (Small r))
  | None => let m1 := ensure m d in Ok (upd m1 d (demote (raw (m1 d) + raw (m1 a) * raw (m1 b))))
  end.
(** ZZ.hh 657-690 [submul] *)
Definition zz_submul (m : mem) (d a b : nat) : outcome mem :=
  fast <- (if is_small (m d) && is_small (m a) && is_small (m b)
           then p <- i128 (raw (m a) * raw (m b)) ;; s <- i128 (raw (m d) - p) ;;
                Ok (if fits64 s then Some s else None)
           else Ok None) ;;
  match fast with
  | Some r => Ok (upd m d (Small r))
  | None => let m1 := ensure m d in Ok (upd m1 d (demote (raw (m1 d) - raw (m1 a) * raw (m1 b))))
  end.
(** ZZ.hh 596-597 [operator/=], [operator%=] *)
Definition zz_div_assign (m : mem) (d b : nat) : outcome mem := r <- zz_div (m d) (m b) ;; Ok (upd m d r).
Definition zz_mod_assign (m : mem) (d b : nat) : outcome mem := r <- zz_mod (m d) (m b) ;; Ok (upd m d r).
(** ZZ.hh 598-606 [operator>>=]: int64_t [>>] is the arithmetic shift, mpz_fdiv_q_2exp the floor *)
Definition zz_shr (a : zz) (n : Z) : zz :=
  match a with
  | Small x => if 63 <=? n then Small (if x <? 0 then -1 else 0) else Small (x / 2 ^ n)
  | Big x => demote (x / 2 ^ n)
  end.
(** ZZ.hh 609-613 [operator<<=] *)
Definition zz_shl (a : zz) (n : Z) : zz := demote (raw a * 2 ^ n).

(** ZZ.hh 693-701 [fdiv_ui]; [x % 0] on uint64_t is undefined, mpz_fdiv_ui signals a zero divisor *)
Definition zz_fdiv_ui (strict : bool) (a : zz) (d : Z) : outcome Z :=
  match a with
  | Small x =>
      if d =? 0 then UB
      else if 0 <=? x then Ok (to_u64 x mod d)
      else n <- neg64 strict x ;; let r := to_u64 n mod d in Ok (if r =? 0 then 0 else d - r)
  | Big x => gdiv Z.modulo x d
  end.

(** int64_t division with the floor adjustment, ZZ.hh 741-745, 779-784 and 813-815; INT64_MIN / -1 and
    INT64_MIN % -1 are undefined (and trap on x86) *)
Definition quot64 (x y : Z) : outcome Z :=
  if y =? 0 then UB else if (x =? i64min) && (y =? -1) then UB else Ok (Z.quot x y).
Definition rem64 (x y : Z) : outcome Z :=
  if y =? 0 then UB else if (x =? i64min) && (y =? -1) then UB else Ok (Z.rem x y).

(** ZZ.hh 731-765 [fdiv_q] *)
Definition zz_fdiv_q (m : mem) (q a b : nat) : outcome mem :=
  if is_small (m a) && is_small (m b) then
    let x := raw (m a) in let y := raw (m b) in
    if y =? 0 then Throw
    else if (x =? i64min) && (y =? -1) then Ok (upd m q (Big (- x)))
    else
      q0 <- quot64 x y ;; r0 <- rem64 x y ;;
      Ok (upd m q (Small (if negb (r0 =? 0) && (Z.lxor r0 y <? 0) then q0 - 1 else q0)))
  else
    let m1 := ensure m q in
    r <- gdiv Z.div (raw (m1 a)) (raw (m1 b)) ;; Ok (upd m1 q (demote r)).
(** ZZ.hh 767-807 [fdiv_qr]; [q] and [r] must be different objects *)
Definition zz_fdiv_qr (m : mem) (q r a b : nat) : outcome mem :=
  if is_small (m a) && is_small (m b) then
    let x := raw (m a) in let y := raw (m b) in
    if y =? 0 then Throw
    else if (x =? i64min) && (y =? -1) then Ok (upd (upd m q (Big (- x))) r (Small 0))
    else
      q0 <- quot64 x y ;; r0 <- rem64 x y ;;
      let adj := negb (r0 =? 0) && (Z.lxor r0 y <? 0) in
      Ok (upd (upd m q (Small (if adj then q0 - 1 else q0))) r (Small (if adj then r0 + y else r0)))
  else
    let m1 := ensure (ensure m q) r in
    q0 <- gdiv Z.div (raw (m1 a)) (raw (m1 b)) ;; r0 <- gdiv Z.modulo (raw (m1 a)) (raw (m1 b)) ;;
    Ok (upd (upd m1 q (demote q0)) r (demote r0)).
(** ZZ.hh 810-835 [fdiv_r]: no special case for INT64_MIN % -1 *)
Definition zz_fdiv_r (m : mem) (r a b : nat) : outcome mem :=
  if is_small (m a) && is_small (m b) then
    let x := raw (m a) in let y := raw (m b) in
    if y =? 0 then Throw
    else
      r0 <- rem64 x y ;;
      Ok (upd m r (Small (if negb (r0 =? 0) && (Z.lxor r0 y <? 0) then r0 + y else r0)))
  else
    let m1 := ensure m r in
    r0 <- gdiv Z.modulo (raw (m1 a)) (raw (m1 b)) ;; Ok (upd m1 r (demote r0)).

(** ZZ.hh 900-918 [pow] *)
Definition zz_pow (a : zz) (n : Z) : zz :=
  if n =? 0 then Small 1
  else if n =? 1 then a
  else if zz_is_zero a then Small 0
  else if zz_is_one a then Small 1
  else demote (raw a ^ n).

(** ZZ.hh 930 [while (y) { t = y; y = x % y; x = t; }] *)
Fixpoint euclid64 (fuel : nat) (x y : Z) : outcome Z :=
  match fuel with
  | O => OutOfFuel
  | S f => if y =? 0 then Ok x else r <- rem64 x y ;; euclid64 f y r
  end.
(** [x < 0 ? -x : x] on int64_t *)
Definition abs64 (strict : bool) (x : Z) : outcome Z := if x <? 0 then neg64 strict x else Ok x.

(** ZZ.hh 920-956 [gcd]; 130 iterations of the loop always suffice (proved) *)
Definition zz_gcd (strict : bool) (a b : zz) : outcome zz :=
  match a, b with
  | Small x, Small y =>
      x1 <- abs64 strict x ;; y1 <- abs64 strict y ;;
      if (x =? i64min) || (y =? i64min) then Ok (demote (Z.gcd x y))
      else omap Small (euclid64 130 x1 y1)
  | Small x, Big y => Ok (demote (Z.gcd x y))
  | Big x, Small y => Ok (demote (Z.gcd x y))
  | Big x, Big y => Ok (demote (Z.gcd x y))
  end.
(** ZZ.hh 958-996 [lcm] *)
Definition zz_lcm (strict : bool) (a b : zz) : outcome zz :=
  if zz_is_zero a || zz_is_zero b then Ok (Small 0)
  else match a, b with
  | Small x, Small y =>
      if negb (x =? i64min) && negb (y =? i64min) then
        g <- zz_gcd strict a b ;;
        av <- abs64 strict x ;; bv <- abs64 strict y ;;
        q <- quot64 av (raw g) ;;
        r <- i128 (q * bv) ;;
        if (0 <=? r) && (r <=? i64max) then Ok (Small r) else Ok (demote (Z.lcm x y))
      else Ok (demote (Z.lcm x y))
  | Small x, Big y => Ok (demote (Z.lcm x y))
  | Big x, Small y => Ok (demote (Z.lcm x y))
  | Big x, Big y => Ok (demote (Z.lcm x y))
  end.
(** ZZ.hh 998-1013 [abs] *)
Definition zz_abs (a : zz) : zz :=
  match a with
  | Small x => if x =? i64min then Big (Z.abs x) else Small (if x <? 0 then - x else x)
  | Big x => demote (Z.abs x)
  end.
