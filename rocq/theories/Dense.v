(** * Model of the dense univariate polynomials over Z/p (dense_upoly_zp.hh).

    A polynomial is the list of its coefficients (uint64_t values) in ascending order; p, and with it _ninv
    and _norm, is passed explicitly.  The scratch buffers and the pointer swaps between them are not
    modelled: every intermediate polynomial is a list of its own, cut to the length the code keeps for it.
    A matrix of the half-gcd is a quadruple of lists.  Recursive functions and loops take fuel. *)
From Verif Require Import Prelude Zp.
Local Open Scope Z_scope.

Definition dpoly := list Z.

Section Dense.
Variable p : Z.

(** 49-54 [nmod_add], 57-60 [nmod_sub] *)
Definition nmod_add (a b : Z) : Z := let neg := wrap64 (p - a) in if b <? neg then wrap64 (a + b) else wrap64 (b - neg).
Definition nmod_sub (a b : Z) : Z := if b <=? a then wrap64 (a - b) else wrap64 (wrap64 (p - b) + a).

(** 63-67 [__strip], 241-246 [_poly_normalise] *)
Fixpoint strip (l : dpoly) : dpoly :=
  match l with
  | [] => []
  | a :: l' => match strip l' with [] => if a =? 0 then [] else [a] | r => a :: r end
  end.

(** 71 [word3], as (lo, mid, hi) *)
Definition word3 : Type := Z * Z * Z.
(** 73-78 [_umul128]: (high word, low word) *)
Definition umul128 (a b : Z) : Z * Z := let prod := wrap128 (a * b) in (wrap64 (Z.shiftr prod 64), wrap64 prod).
(** 80-107 [_add_carry3] *)
Definition add_carry3 (s : word3) (b1 b0 : Z) : word3 :=
  let '(lo, mid, hi) := s in
  let sum := wrap128 (lo + b0) in
  let lo' := wrap64 sum in
  let sum := wrap128 (mid + b1 + wrap64 (Z.shiftr sum 64)) in
  let mid' := wrap64 sum in
  (lo', mid', wrap64 (hi + wrap64 (Z.shiftr sum 64))).

(** 112-128 and 130-146: one step of [_lll_mod_preinv], (h * 2^64 + l) mod p from h < p *)
Definition ll_step (norm ninv h l : Z) : Z :=
  let pn := wrap64 (Z.shiftl p norm) in
  let hs := wrap64 (Z.shiftl h norm) in
  let hs := if 0 <? norm then Z.lor hs (Z.shiftr l (64 - norm)) else hs in
  let ls := wrap64 (Z.shiftl l norm) in
  let qm := wrap128 (hs * ninv) in
  let q1 := wrap64 (Z.shiftr qm 64) in
  let q0 := wrap64 qm in
  let q0 := wrap64 (q0 + ls) in
  let q1 := wrap64 (q1 + wrap64 (hs + (if q0 <? ls then 1 else 0))) in
  let r := wrap64 (ls - wrap64 (wrap64 (q1 + 1) * pn)) in
  let r := if q0 <? r then wrap64 (r + pn) else r in
  let r := if pn <=? r then wrap64 (r - pn) else r in
  Z.shiftr r norm.
(** 109-147 [_lll_mod_preinv] *)
Definition lll_mod (w : word3) : Z :=
  let '(lo, mid, hi) := w in
  let r1 := ll_step (norm_of p) (ninv_of p) hi mid in
  ll_step (norm_of p) (ninv_of p) r1 lo.

(** multiply-accumulate, 164-166 and 337-340 *)
Definition mac (w : word3) (a b : Z) : word3 := let '(p1, p0) := umul128 a b in add_carry3 w p1 p0.

(** 154-170 [_classical_mul] *)
Definition classical_mul (A B : dpoly) : dpoly :=
  let la := length A in let lb := length B in
  map (fun k =>
    let jmin := if Nat.leb lb k then (k - lb + 1)%nat else 0%nat in
    let jmax := if Nat.ltb k la then k else (la - 1)%nat in
    lll_mod (fold_left (fun w j => mac w (nth j A 0) (nth (k - j) B 0)) (seq jmin (jmax + 1 - jmin)) (0, 0, 0)))
    (seq 0 (la + lb - 1)).

(** 251-274 [_poly_add], before the normalisation *)
Fixpoint add_raw (A B : dpoly) : dpoly :=
  match A, B with
  | [], _ => B
  | _, [] => A
  | a :: A', b :: B' => nmod_add a b :: add_raw A' B'
  end.
Definition poly_add (A B : dpoly) : dpoly := strip (add_raw A B).
(** 277-302 [_poly_sub], before the normalisation *)
Fixpoint sub_raw (A B : dpoly) : dpoly :=
  match A, B with
  | [], _ => map (fun b => if b =? 0 then 0 else wrap64 (p - b)) B
  | _, [] => A
  | a :: A', b :: B' => nmod_sub a b :: sub_raw A' B'
  end.
Definition poly_sub (A B : dpoly) : dpoly := strip (sub_raw A B).

Definition kar_threshold : nat := 16.
(** 223-224: C[m+i] = nmod_add(C[m+i], P1[i]) *)
Fixpoint add_at (m : nat) (C P : dpoly) : dpoly :=
  match m, C with
  | O, _ => add_raw C P
  | S m', c :: C' => c :: add_at m' C' P
  | S _, [] => []
  end.
(** 174-225 [_kar_mul]; A and B have the same length *)
Fixpoint kar_mul (fuel : nat) (A B : dpoly) : dpoly :=
  match fuel with
  | O => classical_mul A B
  | S f =>
      let n := length A in
      if Nat.ltb n kar_threshold then classical_mul A B
      else
        let m := Nat.div n 2 in
        let t1 := add_raw (firstn m A) (skipn m A) in
        let t2 := add_raw (firstn m B) (skipn m B) in
        let P0 := kar_mul f (firstn m A) (firstn m B) in
        let P1 := kar_mul f t1 t2 in
        let P2 := kar_mul f (skipn m A) (skipn m B) in
        let P1 := sub_raw P1 P0 in
        let P1 := sub_raw P1 P2 in
        add_at m (P0 ++ [0] ++ P2) P1
  end.

Definition pad (n : nat) (B : dpoly) : dpoly := B ++ repeat 0 (n - length B).
(** 360-379 [_mul]: requires length A >= length B > 0; the callers keep the first len_a+len_b-1 entries *)
Definition mul_raw (A B : dpoly) : dpoly :=
  if Nat.ltb (length B) kar_threshold then classical_mul A B
  else firstn (length A + length B - 1) (kar_mul (length A) A (pad (length A) B)).
(** the pattern "if (len > 0 && len' > 0) { if (len >= len') _mul(..) else _mul(..) }" of 402-420, 471-477, ... *)
Definition mul_any (A B : dpoly) : dpoly :=
  match A, B with
  | [], _ | _, [] => []
  | _, _ => if Nat.leb (length B) (length A) then mul_raw A B else mul_raw B A
  end.

(** W3[i+j] += c * B[j] for all j, 334-341 *)
Fixpoint mac_list (W : list word3) (c : Z) (B : dpoly) : list word3 :=
  match W, B with
  | w :: W', b :: B' => mac w c b :: mac_list W' c B'
  | _, _ => W
  end.
Fixpoint mac_at (i : nat) (W : list word3) (c : Z) (B : dpoly) : list word3 :=
  match i, W with
  | O, _ => mac_list W c B
  | S i', w :: W' => w :: mac_at i' W' c B
  | S _, [] => []
  end.
(** 326-343: the quotient digits i = ii-1, ..., 0; [Q] collects them *)
Fixpoint div_loop (ii : nat) (d : nat) (inv_lc : Z) (B : dpoly) (W : list word3) (Q : dpoly) : list word3 * dpoly :=
  match ii with
  | O => (W, Q)
  | S i =>
      let r := lll_mod (nth (i + d) W (0, 0, 0)) in
      let q := nmod_mul p r inv_lc in
      let W' := if q =? 0 then W else mac_at i W (wrap64 (p - q)) B in
      div_loop i d inv_lc B W' (q :: Q)
  end.
(** 307-354 [_poly_divrem]; also 1172-1233 [divrem].  B = 0 fails an assertion *)
Definition poly_divrem (A B : dpoly) : outcome (dpoly * dpoly) :=
  match B with
  | [] => Throw
  | _ =>
      if Nat.ltb (length A) (length B) then Ok ([], A)
      else
        let d := (length B - 1)%nat in
        let ql := (length A - d)%nat in
        inv_lc <- inv_prime (nth d B 0) p ;;
        let '(W, Q) := div_loop ql d inv_lc B (map (fun a => (a, 0, 0)) A) [] in
        Ok (strip Q, strip (map lll_mod (firstn d W)))
  end.

(** ** half-gcd *)
Definition mat : Type := dpoly * dpoly * dpoly * dpoly.
(** 384-390 [_mat_one] *)
Definition mat_one : mat := ([1], [], [], [1]).
(** 393-430 [_mat_mul_entry] *)
Definition mat_entry (P Q R S : dpoly) : dpoly :=
  let PQ := mul_any P Q in
  let RS := mul_any R S in
  match PQ, RS with
  | [], _ => RS
  | _, [] => PQ
  | _, _ => poly_add PQ RS
  end.
(** 435-462 [_mat_mul] *)
Definition mat_mul (A B : mat) : mat :=
  let '(A0, A1, A2, A3) := A in
  let '(B0, B1, B2, B3) := B in
  (mat_entry A0 B0 A1 B2, mat_entry A0 B1 A1 B3, mat_entry A2 B0 A3 B2, mat_entry A2 B1 A3 B3).
(** 465-488 [_mat_row_update]: (M[i0], M[i1]) becomes (M[i1] + Q*M[i0], M[i0]) *)
Definition row_update (M0 M1 Q : dpoly) : dpoly * dpoly :=
  match Q, M0 with
  | [], _ | _, [] => (M1, M0)
  | _, _ => (poly_add M1 (mul_any Q M0), M0)
  end.
(** 519-536: the loop of [_hgcd_iter] *)
Fixpoint hgcd_iter_loop (fuel m : nat) (M : mat) (A B : dpoly) (sgn : bool) : outcome (mat * dpoly * dpoly * bool) :=
  match fuel with
  | O => OutOfFuel
  | S f =>
      if Nat.leb (m + 1) (length B) then
        '(Q, T) <- poly_divrem A B ;;
        let '(M0, M1, M2, M3) := M in
        let '(L2, L3) := row_update M2 M3 Q in
        let '(L0, L1) := row_update M0 M1 Q in
        hgcd_iter_loop f m (L0, L1, L2, L3) B T (negb sgn)
      else Ok (M, A, B, sgn)
  end.
(** 497-539 [_hgcd_iter]; the returned sign is true for +1 *)
Definition hgcd_iter (fuel : nat) (a b : dpoly) : outcome (mat * dpoly * dpoly * bool) :=
  hgcd_iter_loop fuel (Nat.div (length a) 2) mat_one a b true.

Definition hgcd_cutoff : nat := 100.
Definition gcd_cutoff : nat := 340.
(** a + x^m * b, normalised: the zero filling and addition of 698-708, 742-752, 858-866, 892-900 *)
Definition add_shift (m : nat) (l b : dpoly) : dpoly := poly_add l (repeat 0 m ++ b).
(** 665-752, 830-905: from the split inputs (a_lo, b_lo) and (a3, b3) the reduced pair
    (a, b) with R * (a, b) = the original pair *)
Definition rebuild (m : nat) (R : mat) (sgn : bool) (alo blo a3 b3 : dpoly) : dpoly * dpoly :=
  let '(R0, R1, R2, R3) := R in
  let t2 := mul_any R2 alo in
  let t0 := mul_any R0 blo in
  let b2 := if sgn then poly_sub t0 t2 else poly_sub t2 t0 in
  let t3 := mul_any R3 alo in
  let t1 := mul_any R1 blo in
  let a2 := if sgn then poly_sub t3 t1 else poly_sub t1 t3 in
  (add_shift m a2 a3, add_shift m b2 b3).
(** 551-937 [_hgcd_recursive]; the matrix is always computed (compute_M only saves work) *)
Fixpoint hgcd_rec (fuel : nat) (a b : dpoly) : outcome (mat * dpoly * dpoly * bool) :=
  match fuel with
  | O => OutOfFuel
  | S f =>
      let m := Nat.div (length a) 2 in
      if Nat.ltb (length b) (m + 1) then Ok (mat_one, a, b, true)
      else
        let sub x y := if Nat.ltb (length x) hgcd_cutoff then hgcd_iter f x y else hgcd_rec f x y in
        '(R, a3, b3, sgnR) <- sub (skipn m a) (skipn m b) ;;
        let '(a2, b2) := rebuild m R sgnR (firstn m a) (firstn m b) a3 b3 in
        if Nat.ltb (length b2) (m + 1) then Ok (R, a2, b2, sgnR)
        else
          '(q, d) <- poly_divrem a2 b2 ;;
          let k := (2 * m + 1 - length b2)%nat in
          '(SS, a3', b3', sgnS) <- sub (skipn k b2) (skipn k d) ;;
          let '(A, B) := rebuild k SS sgnS (firstn k b2) (firstn k d) a3' b3' in
          let '(S0, S1, S2, S3) := SS in
          let S0' := match q, S0 with [], _ | _, [] => S2 | _, _ => poly_add S2 (mul_any q S0) end in
          let S1' := match q, S1 with [], _ | _, [] => S3 | _, _ => poly_add S3 (mul_any q S1) end in
          Ok (mat_mul R (S0', S1', S0, S1), A, B, negb (Bool.eqb sgnR sgnS))
  end.

(** ** gcd *)
(** 944-972 [_gcd_euclid]; also 1251-1258 *)
Fixpoint gcd_euclid (fuel : nat) (A B : dpoly) : outcome dpoly :=
  match fuel with
  | O => OutOfFuel
  | S f =>
      match B with
      | [] => Ok A
      | _ => '(_, R) <- poly_divrem A B ;; gcd_euclid f B R
      end
  end.
(** 1025-1046: the main loop of [_gcd_hgcd] *)
Fixpoint hgcd_main (fuel : nat) (G J : dpoly) : outcome dpoly :=
  match fuel with
  | O => OutOfFuel
  | S f =>
      match J with
      | [] => Ok G
      | _ =>
          '(_, R) <- poly_divrem G J ;;
          match R with
          | [] => Ok J
          | _ =>
              if Nat.ltb (length J) gcd_cutoff then gcd_euclid f J R
              else '(_, G', J', _) <- hgcd_rec f J R ;; hgcd_main f G' J'
          end
      end
  end.
(** 975-1050 [_gcd_hgcd] *)
Definition gcd_hgcd (fuel : nat) (A B : dpoly) : outcome dpoly :=
  '(_, R) <- poly_divrem A B ;;
  match R with
  | [] => Ok B
  | _ => '(_, G, J, _) <- hgcd_rec fuel B R ;; hgcd_main fuel G J
  end.

(** ** public operations *)
(** 1273-1311 [add], [sub] *)
Definition d_add := poly_add.
Definition d_sub := poly_sub.
(** 1122-1129 [scalar_mul] *)
Definition d_scalar_mul (c : Z) (A : dpoly) : dpoly :=
  if c =? 0 then [] else if c =? 1 then A else map (fun a => nmod_mul p a c) A.
(** 1133-1168 [mul] *)
Definition d_mul (A B : dpoly) : dpoly :=
  match A, B with
  | [], _ | _, [] => []
  | _, _ =>
      let n := Nat.max (length A) (length B) in
      if Nat.ltb n kar_threshold then strip (classical_mul A B)
      else strip (kar_mul n (pad n A) (pad n B))
  end.
(** 1172-1233 [divrem] *)
Definition d_divrem := poly_divrem.
(** 1237-1269 [gcd] *)
Definition d_gcd (fuel : nat) (A B : dpoly) : outcome dpoly :=
  let '(a, b) := if Nat.ltb (length A) (length B) then (B, A) else (A, B) in
  match b with
  | [] => Ok a
  | _ => if Nat.ltb (length b) gcd_cutoff then gcd_euclid fuel a b else gcd_hgcd fuel a b
  end.
End Dense.

(** 1091-1100: construction from a sparse polynomial (terms in descending order of degree) *)
Fixpoint set_nth (i : nat) (l : dpoly) (x : Z) : dpoly :=
  match i, l with
  | O, _ :: l' => x :: l'
  | S i', a :: l' => a :: set_nth i' l' x
  | _, [] => []
  end.
Definition of_sparse (s : list (Z * Z)) : dpoly :=
  match s with
  | [] => []
  | t :: _ => fold_left (fun l u => set_nth (Z.to_nat (fst u)) l (snd u)) s (repeat 0 (Z.to_nat (fst t) + 1))
  end.
(** 1108-1118 [to_upoly] *)
Definition to_sparse (l : dpoly) : list (Z * Z) :=
  filter (fun t => negb (snd t =? 0)) (rev (combine (map Z.of_nat (seq 0 (length l))) l)).
