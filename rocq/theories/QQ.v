(** * Model of the rational type QQ (number/QQ.hh).

    ZZ arithmetic inside QQ is taken by value (ZZ.v / C01, C03 prove ZZ computes those values). *)
From Verif Require Import Prelude Coef.
Local Open Scope Z_scope.

(** QQ.hh 16-18 *)
Record qq := Qq { qnum : Z; qden : Z }.

(** QQ.hh 20-34 [_canonicalize]; ZZ's [/=] is truncating division *)
Definition canonicalize (q : qq) : qq :=
  if qnum q =? 0 then Qq (qnum q) 1
  else
    let '(n, d) := if Z.sgn (qden q) <? 0 then (- qnum q, - qden q) else (qnum q, qden q) in
    let g := Z.gcd (Z.abs n) d in
    if negb (g =? 1) then Qq (Z.quot n g) (Z.quot d g) else Qq n d.

(** QQ.hh 38-42 integer constructors *)
Definition qq_int (v : Z) : qq := Qq v 1.
(** QQ.hh 44-52 *)
Definition qq_make (num den : Z) : outcome qq := if den =? 0 then Throw else Ok (canonicalize (Qq num den)).
(** QQ.hh 87-90 *)
Definition qq_eqb (a b : qq) : bool := (qnum a =? qnum b) && (qden a =? qden b).
(** QQ.hh 93-96 *)
Definition qq_ltb (a b : qq) : bool := qnum a * qden b <? qnum b * qden a.
(** QQ.hh 102-103 [operator bool], [is_zero] *)
Definition qq_is_zero (a : qq) : bool := qnum a =? 0.
(** QQ.hh 106-111 *)
Definition qq_neg (a : qq) : qq := Qq (- qnum a) (qden a).
(** QQ.hh 114-121 *)
Definition qq_add (a b : qq) : qq := canonicalize (Qq (qnum a * qden b + qnum b * qden a) (qden a * qden b)).
(** QQ.hh 123-129 *)
Definition qq_sub (a b : qq) : qq := canonicalize (Qq (qnum a * qden b - qnum b * qden a) (qden a * qden b)).
(** QQ.hh 131-137 *)
Definition qq_mul (a b : qq) : qq := canonicalize (Qq (qnum a * qnum b) (qden a * qden b)).
(** QQ.hh 139-146 *)
Definition qq_div (a b : qq) : outcome qq :=
  if qnum b =? 0 then Throw else Ok (canonicalize (Qq (qnum a * qden b) (qden a * qnum b))).
(** QQ.hh 192-198 *)
Definition qq_pow (a : qq) (n : Z) : qq := Qq (qnum a ^ n) (qden a ^ n).
(** QQ.hh 200-202, 204-209 *)
Definition qq_sgn (a : qq) : Z := Z.sgn (qnum a).
Definition qq_abs (a : qq) : qq := Qq (Z.abs (qnum a)) (qden a).
(** QQ.hh 161-174 [operator>>] on the text "num/den" (the digits already read as integers): no check of
    the denominator *)
Definition qq_read (num den : Z) : qq := canonicalize (Qq num den).
