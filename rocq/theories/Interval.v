(** * Model of interval.hh (class interval): endpoints, &&, ||, pow.

    An endpoint is a GMP rational extended by mpria's special values: NaN (0/0) and the infinities (1/0, -1/0);
    mpria_mpq_is_infinite returns the sign of an infinity and 0 otherwise.  The arithmetic of intervals itself
    (mpri_mul, mpri_sqr, ...) is the external library mpria: [mul] and [sqr] are parameters here. *)
From Coq Require Import QArith.
From Verif Require Import Prelude.

Inductive endpoint := NaN | NInf | Fin (q : Q) | PInf.
Record interval := Itv { lep : endpoint; rep : endpoint }.
Definition is_nan_ep (e : endpoint) : bool := match e with NaN => true | _ => false end.
(** is_nan, hh 120-123 *)
Definition is_nan (I : interval) : bool := is_nan_ep (lep I) || is_nan_ep (rep I).
(** NAN_interval, hh 364-369 *)
Definition NAN_interval : interval := Itv NaN NaN.
(** inf_interval, hh 357-363 *)
Definition inf_interval : interval := Itv NInf PInf.
(** mpria_mpq_is_infinite *)
Definition inf_sign (e : endpoint) : Z := match e with NInf => -1 | PInf => 1 | _ => 0 end%Z.
(** QQ_cmp, hh 250-266; mpq_cmp is only called on finite endpoints (or NaN, undefined: 0 here) *)
Definition QQ_cmp (a b : endpoint) : Z :=
  let ai := inf_sign a in let bi := inf_sign b in
  if negb (ai =? 0)%Z && negb (bi =? 0)%Z then
    if (ai =? bi)%Z then 0%Z else if (bi <? ai)%Z then 1%Z else (-1)%Z
  else if negb (ai =? 0)%Z then ai
  else if negb (bi =? 0)%Z then (- bi)%Z
  else match a, b with
       | Fin p, Fin q => match (p ?= q)%Q with Lt => -1 | Eq => 0 | Gt => 1 end%Z
       | _, _ => 0%Z
       end.
(** interval(l, r), hh 68-78 *)
Definition interval_lr (l r : endpoint) : interval := if (0 <? QQ_cmp l r)%Z then NAN_interval else Itv l r.
(** operator&&, hh 179-208 *)
Definition inter (A B : interval) : interval :=
  if is_nan A || is_nan B then NAN_interval
  else
    let l := if (0 <=? QQ_cmp (lep A) (lep B))%Z then lep A else lep B in
    let r := if (QQ_cmp (rep A) (rep B) <=? 0)%Z then rep A else rep B in
    if (0 <? QQ_cmp l r)%Z then NAN_interval else Itv l r.
(** operator||, hh 209-236 *)
Definition hull (A B : interval) : interval :=
  if is_nan A then B
  else if is_nan B then A
  else Itv (if (QQ_cmp (lep A) (lep B) <=? 0)%Z then lep A else lep B)
           (if (0 <=? QQ_cmp (rep A) (rep B))%Z then rep A else rep B).
(** pow, hh 321-347.  [index] is a size_t: it is shifted modulo 2^64. *)
Section Pow.
Variables (mul : interval -> interval -> interval) (sqr : interval -> interval).
Definition one_interval : interval := Itv (Fin 1) (Fin 1).
Fixpoint pow_loop (fuel : nat) (n index : N) (ans tmp : interval) : outcome interval :=
  match fuel with
  | O => OutOfFuel
  | S f =>
      let ans' := if negb (N.land index n =? 0)%N then mul ans tmp else ans in
      let index' := (2 * index mod 2 ^ 64)%N in
      if (n <? index')%N then Ok ans'
      else
        let tmp' := sqr tmp in
        if (index' =? n)%N then Ok tmp' else pow_loop f n index' ans' tmp'
  end.
Definition pow (fuel : nat) (A : interval) (n : N) : outcome interval :=
  if (n =? 1)%N then Ok A
  else if (n =? 2)%N then Ok (sqr A)
  else if (n =? 0)%N then Ok one_interval
  else pow_loop fuel n 1 one_interval A.
End Pow.
