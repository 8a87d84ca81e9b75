(** * Model of clpoly/charset.hh: rankcompare, is_reduced, basset, charset (Ritt-Wu characteristic sets).

    [vo] is the variable order of lex_<custom_var_order>; [cgt] is operator> on coefficients (the order of
    std::set of polynomials uses it). *)
From Verif Require Import Prelude Coef Spec OrderSpec PairVec Mono MonoStruct Poly PolyOps Prem.
Local Open Scope Z_scope.

Section Charset.
Context {C : Type} (K : coefs C) (cgt : C -> C -> bool) (vo : vorder).
Context (compress : poly C -> poly C -> outcome (option (poly C))).
Context (compress_v : var -> poly C -> poly C -> outcome (option (poly C))).
Context (ms1 : var -> list (var * Z) -> list (var * Z)) (ms2 : list (var * Z) -> list (var * Z)).
Context (s1 : var -> poly C -> poly C) (s2 : poly C -> poly C).
Notation poly := (poly C).

(** charset.hh 13-35 [rankcompare(F,G)]: rank(F) < rank(G). *)
Definition rankcompare (F G : poly) : bool :=
  if is_number G then false
  else if is_number F then true
  else
    let x := first_var F in let y := first_var G in
    if vo y x then true
    else if negb (N.eqb x y) then false
    else first_deg F <? first_deg G.

(** charset.hh 38-50 [is_reduced(F,G)]. *)
Definition is_reduced (F G : poly) : bool :=
  match F with
  | [] => true
  | _ => if is_number G then false
         else if is_number F then false
         else p_degree_lex vo F (first_var G) <? first_deg G
  end.

(** The search of charset.hh 86-89: the first element of least rank. *)
Definition min_rank (f : poly) (r : list poly) : poly :=
  fold_left (fun m i => if rankcompare i m then i else m) r f.

(** charset.hh 75-101 [basset(first,second)]; [fuel] bounds the while loop. *)
Fixpoint basset (fuel : nat) (F : list poly) : outcome (list poly) :=
  match F with
  | [] => Ok []
  | f :: r =>
      match fuel with
      | O => OutOfFuel
      | Datatypes.S n =>
          let m := min_rank f r in
          B <- basset n (filter (fun i => is_reduced i m) F) ;; Ok (m :: B)
      end
  end.

(** operator< on polynomials, basic_polynomial.hh 365-376 with pair_vec_comp (basic.hh 307-325). *)
Definition poly_lt (p q : poly) : bool := pv_comp (lex_gt vo) mono_eqb K cgt q p.
(** std::set<polynomial>: a sequence sorted by operator< without equivalent elements. *)
Fixpoint set_insert (x : poly) (l : list poly) : list poly :=
  match l with
  | [] => [x]
  | y :: r => if poly_lt x y then x :: l else if poly_lt y x then y :: set_insert x r else l
  end.
Definition set_of (P : list poly) : list poly := fold_left (fun s x => set_insert x s) P [].

(** charset.hh 119-122: f is replaced by prem(f,c,get_first_var(c),false) for each c given, in turn. *)
Fixpoint prem_chain (fuel : nat) (cs : list poly) (f : poly) : outcome poly :=
  match cs with
  | [] => Ok f
  | c :: r =>
      let v := first_var c in
      g <- prem_lex K vo compress (compress_v v) (ms1 v) ms2 (s1 v) s2 fuel f c v false ;;
      prem_chain fuel r g
  end.
(** charset.hh 115-129: the non-zero remainders of the elements of the set by C, last element first. *)
Fixpoint remainders (fuel : nat) (Cs F : list poly) : outcome (list poly) :=
  match F with
  | [] => Ok []
  | f :: r =>
      g <- prem_chain fuel (rev Cs) f ;;
      R <- remainders fuel Cs r ;;
      Ok (match g with [] => R | _ => g :: R end)
  end.
(** charset.hh 108-139: the while(true) loop. *)
Fixpoint charset_loop (fuel : nat) (F : list poly) : outcome (list poly) :=
  match fuel with
  | O => OutOfFuel
  | Datatypes.S n =>
      Cs <- basset n F ;;
      match Cs with
      | [] => UB
      | c :: _ =>
          if is_number c then Ok Cs
          else R <- remainders n Cs F ;;
               match R with
               | [] => Ok Cs
               | _ => charset_loop n (fold_left (fun s x => set_insert x s) R F)
               end
      end
  end.
(** charset.hh 103-142 [charset(P)]. *)
Definition charset (fuel : nat) (P : list poly) : outcome (list poly) :=
  match P with [] => Ok P | _ => charset_loop fuel (set_of P) end.
End Charset.
