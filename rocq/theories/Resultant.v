(** * Model of resultants: resultant.hh (all of it but the list-returning [subresultant], lines
      259-535).  The int loop counters of BezoutMatrix and det are modelled as integers.

    The polynomials live in the order univariate_priority_order of the variable [v] (lex with [v] first).
    [compress] and [dcompress] are the packed shortcuts of multiplication and division.  [fuel] bounds the
    iterations of the loops of this file, [f] those of the division and pseudo-division loops. *)
From Verif Require Import Prelude Coef Spec OrderSpec PairVec Mono MonoStruct Heap Poly Div PolyOps Prem.
Local Open Scope Z_scope.

Section Resultant.
Context {C : Type} (K : coefs C) (v : var).
Context (compress dcompress : poly C -> poly C -> outcome (option (poly C))).
Notation S := (lexS (vuniv v)).
Notation poly := (poly C).
Notation mul := (p_mul S K compress).

(** prem(O,G,F,v): polynomial.hh 390-475, is_L defaults to true. *)
Definition rprem (f : nat) (G F : poly) : outcome poly := prem_core K (vuniv v) compress f G F v true.
(** pair_vec_div: basic.hh, see Div.v *)
Definition rdiv (f : nat) (F G : poly) : outcome poly :=
  pair_vec_div (m_gt S) (m_eq S) (m_mul S) (m_div S) K f dcompress F G.
(** pair_vec_power(O,R,n): O is left unchanged for n = 0, which does not occur here (n >= 2) *)
Definition rpower (O R : poly) (n : Z) : outcome poly := pair_vec_power S K compress 64 O R n.
Definition lc (F : poly) : poly := fst (leadcoeff_up v F).
Definition neg_if (b : bool) (p : poly) : poly := if b then p_neg K p else p.

(** R^n * P for n >= 1 as computed in 103-110 and 138-147: n < 2 multiplies by R itself; [O] is the old
    content of the buffer. *)
Definition pow_mul (O R P : poly) (n : Z) : outcome poly :=
  if n <? 2 then mul R P else (T <- rpower O R n ;; mul T P).

(** A finished computation, or the state S_j_1, S_j, S_r, j of the loop. *)
Inductive rstate := Done (O : poly) | Loop (Sj1 Sj Sr : poly) (j : Z).

(** resultant.hh 92-119: deg F = m > l = deg G *)
Definition init_lt (f : nat) (F G : poly) (m l : Z) : outcome rstate :=
  let j := m - 1 in
  if j =? l then (Sj <- rprem f F G ;; Ok (Loop G Sj [] (j - 1)))
  else
    (Sr <- pow_mul [] (lc G) G (j - l) ;;
     Sr1 <- rprem f F G ;;
     Ok (Loop Sr (neg_if (Z.odd (j - l)) Sr1) [] (l - 1))).

(** resultant.hh 121-179: deg F = m = deg G; [r != 1] as in line 138. *)
Definition init_eq (f : nat) (F G : poly) (m : Z) : outcome rstate :=
  P <- rprem f F G ;;
  let Sj := p_neg K P in
  let j := m - 1 in
  if j =? 0 then Ok (Done Sj)
  else
    let r := p_up_deg v Sj in
    if r <? 0 then Ok (Done [])
    else if r <? j then
      (Sr <- (if negb (r =? 1) then pow_mul [] (lc Sj) Sj (j - r) else Ok []) ;;
       if r =? 0 then Ok (Done Sr)
       else
         (tmp1 <- rprem f G Sj ;;
          Sr1 <- rdiv f tmp1 (lc G) ;;
          Ok (Loop Sr (neg_if (Z.odd (j - r)) Sr1) [] (r - 1))))
    else
      (tmp1 <- rprem f G Sj ;;
       T <- rdiv f tmp1 (lc G) ;;
       Ok (Loop Sj T [] (j - 1))).

(** resultant.hh 180-253.  The power of R_ left in tmp1 by lines 203 and 209 is recomputed where 227 uses it.
    After an iteration with r < j the buffer S_r holds the old S_j_1 (swap, 235). *)
Fixpoint res_loop (fuel f : nat) (Sj1 Sj Sr : poly) (j : Z) : outcome poly :=
  if j >? 0 then
    match fuel with
    | O => OutOfFuel
    | Datatypes.S fuel' =>
        let r := p_up_deg v Sj in
        if r <? 0 then Ok []
        else if r <? j then
          let R := lc Sj1 in
          (Sr' <- (if negb (r =? 1) then
                     (if j - r <? 2 then (tmp2 <- mul (lc Sj) Sj ;; rdiv f tmp2 R)
                      else (P <- rpower Sr (lc Sj) (j - r) ;; tmp2 <- mul P Sj ;;
                            T <- rpower (lc Sj) R (j - r) ;; rdiv f tmp2 T))
                   else Ok Sr) ;;
           if r =? 0 then Ok Sr'
           else
             (R2 <- mul R R ;;
              Sr1 <- (if j - r <? 2 then
                        (T <- mul R R2 ;; P <- rprem f Sj1 Sj ;; rdiv f P T)
                      else
                        (T <- rpower [] R (j - r) ;; R' <- mul R2 T ;; P <- rprem f Sj1 Sj ;; rdiv f P R')) ;;
              res_loop fuel' f Sr' (neg_if (Z.odd (j - r)) Sr1) Sj1 (r - 1)))
        else
          (tmp1 <- rprem f Sj1 Sj ;;
           R2 <- mul (lc Sj1) (lc Sj1) ;;
           T <- rdiv f tmp1 R2 ;;
           res_loop fuel' f Sj T Sr (j - 1))
    end
  else Ok Sj.

(** ** BezoutMatrix: resultant.hh 559-624 *)
(** tmp: the terms of [p] with the exponent of [v] replaced by [e] *)
Definition up_shift (e : Z) (p : poly) : poly := map (fun t => (change_up v (fst t) e, snd t)) p.
Definition nth_co (co : list poly) (k : Z) : outcome poly :=
  match nth_error co (Z.to_nat k) with Some p => if k <? 0 then UB else Ok p | None => UB end.
(** f = sum over r = lo..lo+n-1 of co[a-r] with v-exponent e-r *)
Fixpoint bez_sum (co : list poly) (a e : Z) (n : nat) (lo : Z) (acc : poly) : outcome poly :=
  match n with
  | O => Ok acc
  | Datatypes.S n' => (c <- nth_co co (a - lo) ;; bez_sum co a e n' (lo + 1) (p_add S K acc (up_shift (e - lo) c)))
  end.
(** the row of index m-i (581-617), as the list of its entries for j = 1..n *)
Definition bez_row (coF coG : list poly) (n m i : Z) : outcome (list poly) :=
  f1 <- bez_sum coG m n (Z.to_nat (m + 1 - i)) i [] ;;
  f3 <- bez_sum coF n n (Z.to_nat (n + 1 - i)) i [] ;;
  f2 <- bez_sum coF (n + 1) i (Z.to_nat i) 1 [] ;;
  f4 <- bez_sum coG (m + 1) i (Z.to_nat i) 1 [] ;;
  a <- mul f1 f2 ;; b <- mul f3 f4 ;;
  cot <- coeff_up v (p_sub S K a b) ;;
  Ok (map (fun k => nth k cot []) (rev (seq 0 (Z.to_nat n)))).
Fixpoint omapl {A B} (g : A -> outcome B) (l : list A) : outcome (list B) :=
  match l with [] => Ok [] | x :: r => (y <- g x ;; t <- omapl g r ;; Ok (y :: t)) end.
(** the rows of index i-1 for i = m+1..n (618-621): coG[m], ..., coG[0] from column i-m-1 on *)
Definition bez_shift_row (coG : list poly) (n m : Z) (i : Z) : list poly :=
  repeat [] (Z.to_nat (i - m - 1)) ++ rev coG ++ repeat [] (Z.to_nat (n - i)).
Definition zseq (lo : Z) (n : nat) : list Z := map (fun k => lo + Z.of_nat k) (seq 0 n).
(** the matrix as the list of its rows 0..n-1; row m-i for i = 1..m, row i-1 for i = m+1..n *)
Definition bezout_matrix (F G : poly) : outcome (list (list poly)) :=
  let n := p_up_deg v F in let m := p_up_deg v G in
  if n <? m then Throw else
  coF <- coeff_up v F ;; coG <- coeff_up v G ;;
  rows <- omapl (bez_row coF coG n m) (rev (zseq 1 (Z.to_nat m))) ;;
  Ok (rows ++ map (bez_shift_row coG n m) (zseq (m + 1) (Z.to_nat (n - m)))).

(** det: resultant.hh 627-652, expansion along the first column, skipping its zero entries; the minor B
    has the rows other than [arow] and the columns from the second on. *)
Fixpoint p_det (n : nat) (A : list (list poly)) : outcome poly :=
  match n with
  | O => Throw
  | Datatypes.S n' =>
      match n' with
      | O => match A with (a :: _) :: _ => Ok a | _ => UB end
      | _ =>
        (fix go (pre rest : list (list poly)) (even : bool) (sum : poly) : outcome poly :=
           match rest with
           | [] => Ok sum
           | row :: rest' =>
               match row with
               | [] => UB
               | a :: _ =>
                   match a with
                   | [] => go (pre ++ [row]) rest' (negb even) sum
                   | _ => (D <- p_det n' (map (@tl poly) (pre ++ rest')) ;;
                           P <- mul a D ;;
                           go (pre ++ [row]) rest' (negb even) (if even then p_add S K sum P else p_sub S K sum P))
                   end
               end
           end) [] A true []
      end
  end.

(** resultant(O,F,G,v): resultant.hh 34-255.  The case m >= l >= 1 of lines 69-253: *)
Definition resultant_ge (fuel : nat) (F G : poly) (m l : Z) : outcome poly :=
  let vars := fold_left (fun s t => vars_merge (vuniv v) s (md (fst t))) G (get_variables (vuniv v) F) in
  if Z.of_nat (length vars) >? 3 then
    (B <- bezout_matrix F G ;; p_det (Z.to_nat m) B)
  else
    (st <- (if l <? m then init_lt fuel F G m l else init_eq fuel F G m) ;;
     match st with
     | Done P => Ok P
     | Loop Sj1 Sj Sr j => res_loop fuel fuel Sj1 Sj Sr j
     end).
(** lines 43-68: the recursive call for m < l meets none of the conditions before line 69. *)
Definition resultant_up (fuel : nat) (F G : poly) : outcome poly :=
  let m := p_up_deg v F in let l := p_up_deg v G in
  match F, G with
  | [], _ | _, [] => Ok []
  | _, _ =>
      if (m <? 0) || (l <? 0) then Ok []
      else if m =? 0 then p_pow S K compress 64 (Some (c1 K)) F l
      else if l =? 0 then p_pow S K compress 64 (Some (c1 K)) G m
      else if m <? l then (P <- resultant_ge fuel G F l m ;; Ok (neg_if (Z.odd l && Z.odd m) P))
      else resultant_ge fuel F G m l
  end.
End Resultant.

(** resultant(G,F,v), any order: resultant.hh 18-31: both arguments are converted to the order in which [v]
    comes first, the result converted back.  (The names F and G are exchanged with respect to the function
    above; the first argument stays the first.) *)
Definition resultant {C} (K : coefs C) (vo : vorder) (gt : mono -> mono -> bool) (v : var)
  (compress dcompress : poly C -> poly C -> outcome (option (poly C)))
  (ms1 ms2 : list (var * Z) -> list (var * Z)) (s1 s2 : poly C -> poly C)
  (fuel : nat) (G F : poly C) : outcome (poly C) :=
  let up := p_convert K (vuniv v) (lex_gt (vuniv v)) ms1 s1 (fun c => c) in
  (O1 <- resultant_up K v compress dcompress fuel (up G) (up F) ;;
   Ok (p_convert K vo gt ms2 s2 (fun c => c) O1)).

(** discriminant(G,v): resultant.hh 537-556.  The quotient is operator/ (basic_polynomial.hh
    286-302); leadcoeff(G1) is the ZZ-only function of polynomial.hh 239-265; [(m*(m-1)) & 3] (in int64, no
    overflow for m < 2^31) is non-zero exactly when m*(m-1)/2 is odd. *)
Definition discriminant {C} (K : coefs C) (vo : vorder) (gt : mono -> mono -> bool) (v : var)
  (compress dcompress : poly C -> poly C -> outcome (option (poly C)))
  (ms1 ms2 : list (var * Z) -> list (var * Z)) (s1 s2 : poly C -> poly C)
  (fuel : nat) (G : poly C) : outcome (poly C) :=
  let G1 := p_convert K (vuniv v) (lex_gt (vuniv v)) ms1 s1 (fun c => c) G in
  let m := p_up_deg v G1 in
  if m =? 0 then Ok []
  else
    let F1 := p_derivative_lex K G1 in
    (O1 <- resultant_up K v compress dcompress fuel G1 F1 ;;
     let O2 := if negb (Z.land (m * (m - 1)) 3 =? 0) then p_neg K O1 else O1 in
     Q <- rdiv K v dcompress fuel O2 (leadcoeff_lex G1) ;;
     Ok (p_convert K vo gt ms2 s2 (fun c => c) Q)).
