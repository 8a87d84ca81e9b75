(** * Model of pseudo-division: polynomial.hh 297-655 (prem, pquo). *)
From Verif Require Import Prelude Coef Spec OrderSpec PairVec Mono MonoStruct Poly PolyOps.
Local Open Scope Z_scope.

Section Prem.
Context {C : Type} (K : coefs C) (vo : vorder).
Context (compress : poly C -> poly C -> outcome (option (poly C))).
Notation S := (lexS vo).
Notation poly := (poly C).

(** The maximal prefix of terms whose first variable is [v] with exponent [d], and the rest
    (the loops of polynomial.hh 365-369, 437-446, 535-544). *)
Fixpoint split_lead (v : var) (d : Z) (F : poly) : poly * poly :=
  match F with
  | [] => ([], [])
  | t :: r => if N.eqb (mfirst_var (fst t)) v && (mfirst_deg (fst t) =? d)
              then (let '(a, b) := split_lead v d r in (t :: a, b))
              else ([], F)
  end.
Definition set_deg (v : var) (d : Z) (F : poly) : poly :=
  map (fun t => (change_var_deg vo (fst t) v d, snd t)) F.

(** __onestep__prem_v1, polynomial.hh 347-388: returns (O, G1).  The first dereference of an empty G is
    undefined. *)
Definition prem_step (v : var) (F0 : poly) (f : Z) (F_ G : poly) : outcome (poly * poly) :=
  match G with
  | [] => UB
  | g0 :: _ =>
      let g := mfirst_deg (fst g0) in
      let '(GL, G2) := split_lead v g G in
      let G1 := set_deg v (g - f) GL in
      (F1 <- p_mul S K compress G1 F_ ;;
       match G2 with
       | [] => Ok (p_neg K F1, G1)
       | _ => (O1 <- p_mul S K compress G2 F0 ;; Ok (p_sub S K O1 F1, G1))
       end)
  end.

(** The while loops of 450-456 and 549-560 ([Qo = None] for prem, the quotient so far for pquo). *)
Fixpoint prem_loop (fuel : nat) (v : var) (F0 : poly) (f : Z) (F_ : poly) (O : poly) (Qo : option poly) (d : Z)
  : outcome (poly * option poly * Z) :=
  if N.eqb (first_var O) v && (first_deg O >=? f) then
    match fuel with
    | Datatypes.O => OutOfFuel
    | Datatypes.S fuel' =>
        '(O', G1) <- prem_step v F0 f F_ O ;;
        Qo' <- (match Qo with
                | None => Ok None
                | Some Q => (t <- p_mul S K compress F0 Q ;; Ok (Some (t ++ G1)))
                end) ;;
        prem_loop fuel' v F0 f F_ O' Qo' (d - 1)
    end
  else Ok (O, Qo, d).

(** The factor F0^d by which the results are multiplied (458-471, 561-579): d==1 uses F0 itself. *)
Definition prem_factor (F0 : poly) (d : Z) : outcome poly :=
  if d =? 1 then Ok F0 else pair_vec_power S K compress 64 [] F0 d.

(** prem(O,G,F,v,is_L): polynomial.hh 390-475. *)
Definition prem_core (fuel : nat) (G F : poly) (v : var) (is_L : bool) : outcome poly :=
  match F with
  | [] => Throw
  | _ =>
    if is_number F then Ok []
    else
      let f := first_deg F in let g := first_deg G in
      if negb (N.eqb (first_var F) v) then Ok []
      else if negb (N.eqb (first_var G) v) || (g <? f) then Ok G
      else
        let '(FL, F_) := split_lead v f F in
        let F0 := set_deg v 0 FL in
        '(O1, _) <- prem_step v F0 f F_ G ;;
        '(r, d) <- prem_loop fuel v F0 f F_ O1 None (g - f) ;;
        let O := fst r in
        if is_L && (d >? 0) then (P <- prem_factor F0 d ;; p_mul S K compress O P) else Ok O
  end.

(** pquo(Q,R,G,F,v,is_L): polynomial.hh 481-581; returns (Q,R). *)
Definition pquo_core (fuel : nat) (G F : poly) (v : var) (is_L : bool) : outcome (poly * poly) :=
  match F with
  | [] => Throw
  | _ =>
    if is_number F || negb (N.eqb (first_var F) v) then
      let d := if N.eqb v (first_var G) then first_deg G else 0 in
      if negb (d =? 0) then (P <- prem_factor F d ;; Q <- p_mul S K compress G P ;; Ok (Q, []))
      else Ok (G, [])
    else
      let f := first_deg F in let g := first_deg G in
      if negb (N.eqb (first_var G) v) || (g <? f) then Ok ([], G)
      else
        let '(FL, F_) := split_lead v f F in
        let F0 := set_deg v 0 FL in
        '(R1, Q1) <- prem_step v F0 f F_ G ;;
        '(r, d) <- prem_loop fuel v F0 f F_ R1 (Some Q1) (g - f) ;;
        let R := fst r in let Q := match snd r with Some q => q | None => [] end in
        if is_L && (d >? 0) then
          (P <- prem_factor F0 d ;; R' <- p_mul S K compress R P ;; Q' <- p_mul S K compress Q P ;; Ok (Q', R'))
        else Ok (Q, R)
  end.
End Prem.

(** prem(G,F,v), generic order: polynomial.hh 297-318: both arguments are converted to the order in
    which [v] comes first, the result converted back.  [s1], [s2] stand for std::sort on monomial data and
    on polynomials in the two orders. *)
Definition prem_gen {C} (K : coefs C) (vo : vorder) (gt : mono -> mono -> bool)
  (compress : poly C -> poly C -> outcome (option (poly C)))
  (ms1 ms2 : list (var * Z) -> list (var * Z)) (s1 s2 : poly C -> poly C)
  (fuel : nat) (G F : poly C) (v : var) (is_L : bool) : outcome (poly C) :=
  match F with
  | [] => Throw
  | _ =>
    if is_number F then Ok []
    else
      let up := p_convert K (vuniv v) (lex_gt (vuniv v)) ms1 s1 (fun c => c) in
      (O1 <- prem_core K (vuniv v) compress fuel (up G) (up F) v is_L ;;
       Ok (p_convert K vo gt ms2 s2 (fun c => c) O1))
  end.
(** prem(G,F,v), lex orders: polynomial.hh 319-343: directly when [v] comes first in both arguments
    (comp_consistent holds: the two arguments have the same order). *)
Definition lex_direct {C} (vo : vorder) (G F : poly C) (v : var) : bool :=
  (N.eqb v (first_var F) || vo v (first_var F)) &&
  (is_number G || N.eqb v (first_var G) || vo v (first_var G)).
Definition prem_lex {C} (K : coefs C) (vo : vorder)
  (compress compress_v : poly C -> poly C -> outcome (option (poly C)))
  (ms1 ms2 : list (var * Z) -> list (var * Z)) (s1 s2 : poly C -> poly C)
  (fuel : nat) (G F : poly C) (v : var) (is_L : bool) : outcome (poly C) :=
  match F with
  | [] => Throw
  | _ =>
    if is_number F then Ok []
    else if lex_direct vo G F v then prem_core K vo compress fuel G F v is_L
    else prem_gen K vo (lex_gt vo) compress_v ms1 ms2 s1 s2 fuel G F v is_L
  end.

(** pquo(R,G,F,v), generic order: polynomial.hh 584-616; lex orders: 617-655.  [deg] is the degree function
    of the order. *)
Definition pquo_number {C} (K : coefs C) (S : monos mono)
  (compress : poly C -> poly C -> outcome (option (poly C))) (G F : poly C) (d : Z) : outcome (poly C * poly C) :=
  if negb (d =? 0) then (P <- p_pow S K compress 64 (Some (c1 K)) F d ;; Q <- p_mul S K compress G P ;; Ok (Q, []))
  else Ok (G, []).
Definition pquo_conv {C} (K : coefs C) (vo : vorder) (gt : mono -> mono -> bool)
  (compress : poly C -> poly C -> outcome (option (poly C)))
  (ms1 ms2 : list (var * Z) -> list (var * Z)) (s1 s2 : poly C -> poly C)
  (fuel : nat) (G F : poly C) (v : var) (is_L : bool) : outcome (poly C * poly C) :=
  let up := p_convert K (vuniv v) (lex_gt (vuniv v)) ms1 s1 (fun c => c) in
  '(Q1, R1) <- pquo_core K (vuniv v) compress fuel (up G) (up F) v is_L ;;
  Ok (p_convert K vo gt ms2 s2 (fun c => c) Q1, p_convert K vo gt ms2 s2 (fun c => c) R1).
Definition pquo_gen {C} (K : coefs C) (vo : vorder) (S : monos mono)
  (compress compress_v : poly C -> poly C -> outcome (option (poly C)))
  (ms1 ms2 : list (var * Z) -> list (var * Z)) (s1 s2 : poly C -> poly C)
  (fuel : nat) (G F : poly C) (v : var) (is_L : bool) : outcome (poly C * poly C) :=
  match F with
  | [] => Throw
  | _ => if is_number F then pquo_number K S compress G F (p_degree G v)
         else pquo_conv K vo (m_gt S) compress_v ms1 ms2 s1 s2 fuel G F v is_L
  end.
Definition pquo_lex {C} (K : coefs C) (vo : vorder)
  (compress compress_v : poly C -> poly C -> outcome (option (poly C)))
  (ms1 ms2 : list (var * Z) -> list (var * Z)) (s1 s2 : poly C -> poly C)
  (fuel : nat) (G F : poly C) (v : var) (is_L : bool) : outcome (poly C * poly C) :=
  match F with
  | [] => Throw
  | _ => if is_number F then pquo_number K (lexS vo) compress G F (p_degree_lex vo G v)
         else if lex_direct vo G F v then pquo_core K vo compress fuel G F v is_L
         else pquo_conv K vo (lex_gt vo) compress_v ms1 ms2 s1 s2 fuel G F v is_L
  end.
