(** * Model of the comparison of isolated real roots: class uroot of realroot.hh, realroot.cc 631-700 (the comparison
      with a rational, 701-723, and the refinement 575-613 are in Uspensky.v).

    A finite root is a polynomial with an interval; [comp] may refine the intervals and replace the polynomials of
    both arguments, so the model returns the two arguments as they are after the call.  The arguments are different
    objects (comparing an object with itself is not modelled). *)
From Verif Require Import Prelude Coef OrderSpec PairVec Heap MonoStruct Poly PolyOps Zp NumSpec ZpProofs Gcd UGcd QQ QQProofs Uspensky.
Local Open Scope Z_scope.

(** realroot.cc 633-650 [_uroot_check(const upolynomial_<ZZ>&, const QQ&, const QQ&)] *)
Definition uroot_in (G : uz) (a b : qqc) : outcome bool :=
  let rig := uassign G b in
  if qqc_eqb a b && q_is0 rig then Ok true
  else
    let lef := uassign G a in
    if q_sgn rig * q_sgn lef <? 0 then Ok true
    else if q_sgn rig * q_sgn lef >? 0 then Ok false
    else (p <- r_to_ab G a b ;; Ok (negb (Nat.eqb (coeffsignchanges p) 0))).

(** operator== of upolynomial_<ZZ> *)
Fixpoint u_eqb (p q : uz) : bool :=
  match p, q with
  | [], [] => true
  | s :: p', t :: q' => (fst s =? fst t) && (snd s =? snd t) && u_eqb p' q'
  | _, _ => false
  end.

Section Comp.
Variable srt : upz -> upz.
Variable ps : nat -> pmod.

Definition same_interval (r1 r2 : uroot) : bool := qqc_eqb (ur_left r1) (ur_left r2) && qqc_eqb (ur_right r1) (ur_right r2).
(** 671-675, 685-689: [if (r1->left()>r2->left()) { std::swap(r1,r2); status*=-1; }]: the pointers are swapped *)
Definition order_roots (st : Z) (r1 r2 : uroot) : Z * uroot * uroot :=
  if q_ltb (ur_left r2) (ur_left r1) then (- st, r2, r1) else (st, r1, r2).
(** the two objects in the order of the arguments: status is 1 if the pointers are not swapped, -1 if they are *)
Definition put_back (st c : Z) (r1 r2 : uroot) : Z * uroot * uroot := if st =? 1 then (c, r1, r2) else (c, r2, r1).
(** 705-710 *)
Fixpoint comp_loop (fuel : nat) (r1 r2 : uroot) : outcome (uroot * uroot) :=
  match fuel with
  | O => OutOfFuel
  | S f =>
      if same_interval r1 r2 then
        r1' <- uroot_check r1 (q_mid (ur_left r1) (ur_right r1)) ;;
        r2' <- uroot_check r2 (q_mid (ur_left r2) (ur_right r2)) ;;
        comp_loop f r1' r2'
      else Ok (r1, r2)
  end.
(** 651-700 [uroot::comp] of two roots, on finite roots: 1 if r1<r2, 0 if r1=r2, -1 if r1>r2 *)
Definition comp_fin (fuel : nat) (r1 r2 : uroot) : outcome (Z * uroot * uroot) :=
  if qqc_eqb (ur_left r1) (ur_right r1) then
    ('(c, r2') <- uroot_comp_q r2 (ur_left r1) ;; Ok (- c, r1, r2'))
  else if qqc_eqb (ur_left r2) (ur_right r2) then
    ('(c, r1') <- uroot_comp_q r1 (ur_left r2) ;; Ok (c, r1', r2))
  else
    let '(st, r1, r2) := order_roots 1 r1 r2 in
    if q_ltb (ur_right r1) (ur_left r2) then Ok (put_back st st r1 r2)
    else
      '(r1, r2) <- (if same_interval r1 r2 then Ok (r1, r2)
                    else (r1 <- uroot_check r1 (ur_left r2) ;;
                          r1 <- uroot_check r1 (ur_right r2) ;;
                          r2 <- uroot_check r2 (ur_right r1) ;; Ok (r1, r2))) ;;
      let '(st, r1, r2) := order_roots st r1 r2 in
      if negb (same_interval r1 r2) then Ok (put_back st st r1 r2)
      else if u_eqb (ur_poly r1) (ur_poly r2) then Ok (put_back st 0 r1 r2)
      else
        p <- upoly_gcd srt ps fuel (ur_poly r1) (ur_poly r2) ;;
        b <- uroot_in p (ur_left r1) (ur_right r1) ;;
        if (b : bool) then Ok (put_back st 0 (Uroot p (ur_left r1) (ur_right r1)) (Uroot p (ur_left r2) (ur_right r2)))
        else
          p1 <- udiv fuel (ur_poly r1) p ;;
          p2 <- udiv fuel (ur_poly r2) p ;;
          '(r1, r2) <- comp_loop fuel (Uroot p1 (ur_left r1) (ur_right r1)) (Uroot p2 (ur_left r2) (ur_right r2)) ;;
          if negb (q_ltb (ur_left r2) (ur_left r1)) then Ok (put_back st st r1 r2) else Ok (put_back st (- st) r1 r2).

(** a root or one of the values uroot::inf(), uroot::neginf() *)
Inductive xroot := NegInf | Inf | Fin (r : uroot).
(** 653-660: the infinite cases *)
Definition uroot_comp (fuel : nat) (r1 r2 : xroot) : outcome (Z * xroot * xroot) :=
  match r1, r2 with
  | NegInf, NegInf => Ok (0, r1, r2)
  | NegInf, _ => Ok (1, r1, r2)
  | Inf, Inf => Ok (0, r1, r2)
  | Inf, _ => Ok (-1, r1, r2)
  | Fin _, Inf => Ok (1, r1, r2)
  | Fin _, NegInf => Ok (-1, r1, r2)
  | Fin a, Fin b => ('(c, a', b') <- comp_fin fuel a b ;; Ok (c, Fin a', Fin b'))
  end.
End Comp.
(** realroot.cc 701-707: comparison with a rational *)
Definition uroot_comp_qx (r : xroot) (q : qqc) : outcome (Z * xroot) :=
  match r with
  | NegInf => Ok (1, r)
  | Inf => Ok (-1, r)
  | Fin a => ('(c, a') <- uroot_comp_q a q ;; Ok (c, Fin a'))
  end.
(** realroot.hh, shrinkinterval *)
Definition shrink_interval (r : uroot) : outcome uroot :=
  if qqc_eqb (ur_left r) (ur_right r) then Ok r else uroot_check r (q_mid (ur_left r) (ur_right r)).
