(** * Model of packed monomials (monomial.hh 182-575, monomial_order.hh 204-297 and 419-508).

    The hooks [__pair_vec_multiplies_compression] and [__pair_vec_div_compression] replace every
    monomial by one uint64_t.  Words are integers in [0, 2^64) with explicit wrap-around; shift counts
    follow [shl64]/[shr64] of Prelude.v: a count of 64 or more is undefined behaviour when
    [strict = true] (the C++ standard) and is taken modulo 64 when [strict = false] (x86-64).
    The heap loops are those of Heap.v and Div.v on codes; the scratch arrays of the packed division are
    one slot longer than the model's ([v2_.size()], monomial.hh 350-355), which only makes the model's
    bounds checks stricter. *)
From Verif Require Import Prelude Coef Spec OrderSpec PairVec Mono Heap MonoStruct Div.
Local Open Scope Z_scope.

(** ** Variables: monomial.hh 182-213 [__pair_vec_variables].  One monomial is merged into the sorted list. *)
Section Vars.
Variable vo : vorder.
Fixpoint merge_vars (l : list var) : list var -> list var :=
  match l with
  | [] => fun ms => ms
  | a :: l' =>
      fix go (ms : list var) : list var :=
        match ms with
        | [] => l
        | b :: ms' =>
            if vo a b then a :: merge_vars l' ms
            else if vo b a then b :: go ms'
            else a :: merge_vars l' ms'
        end
  end.
Definition add_vars (l : list var) (ms : list mono) : list var :=
  fold_left (fun l m => merge_vars l (map fst (md m))) ms l.
Definition pair_vec_vars (m1 m2 : list mono) : list var := add_vars (add_vars [] m1) m2.
End Vars.

Definition some_negative (ms : list mono) : bool :=
  existsb (fun m => existsb (fun t => snd t <? 0) (md m)) ms.
(** conversion to size_t of [64/n - 1] *)
Definition usub1 (x : Z) : Z := wrap64 (x - 1).

Section Pack.
Variable strict : bool.
Variable vo : vorder.

Definition mapM {A B} (f : A -> outcome B) : list A -> outcome (list B) :=
  fix go (l : list A) : outcome (list B) :=
    match l with [] => Ok [] | a :: r => b <- f a ;; t <- go r ;; Ok (b :: t) end.

(** monomial_order.hh 204-229 (grlex) and 419-451 (lex): [__is_monomial_can_compression].  The [else] of
    lines 226/448 binds to the inner [if], so with [delta = 0] no size check is made at all, and with
    [delta = 1] both are.  Result: the variable list, or None for [return false]. *)
Definition size_checks (delta : bool) (n : Z) (mx sum l : Z) : outcome bool :=
  if delta then
    if 1 <? n then
      b1 <- shl64 strict 1 (usub1 l) ;;
      if b1 <=? wrap64 mx then Ok false
      else (b2 <- shl64 strict 1 l ;; Ok (negb (b2 <=? wrap64 sum)))
    else Ok true
  else Ok true.
Definition lead_deg (ms : list mono) : outcome Z := m <- aget ms 0 ;; Ok (mg m).
Definition can_grlex (delta : bool) (m1 m2 : list mono) : outcome (option (list var)) :=
  if some_negative m1 || some_negative m2 then Ok None
  else
    let vars := pair_vec_vars vo m1 m2 in
    let n := Z.of_nat (length vars) in
    d1 <- lead_deg m1 ;; d2 <- lead_deg m2 ;;
    b <- size_checks delta n (Z.max d1 d2) (d1 + d2) (64 / (n + 1)) ;;
    Ok (if b : bool then Some vars else None).
Definition max_exp (ms : list mono) : Z :=
  fold_left (fun d m => fold_left (fun d t => Z.max d (snd t)) (md m) d) ms 0.
Definition can_lex (delta : bool) (m1 m2 : list mono) : outcome (option (list var)) :=
  if some_negative m1 || some_negative m2 then Ok None
  else
    let vars := pair_vec_vars vo m1 m2 in
    let n := Z.of_nat (length vars) in
    b <- size_checks delta n (Z.max (max_exp m1) (max_exp m2)) (max_exp m1 + max_exp m2) (64 / n) ;;
    Ok (if b : bool then Some vars else None).

(** monomial_order.hh 240-251 and 459-467: the loop over the variables. *)
Fixpoint pack_loop (l : Z) (vs : list var) (d : list (var * Z)) (mc : Z) : outcome Z :=
  match vs with
  | [] => Ok mc
  | v :: vs' =>
      mc' <- shl64 strict mc l ;;
      match d with
      | (w, e) :: d' => if N.eqb v w then pack_loop l vs' d' (wrap64 (mc' + e)) else pack_loop l vs' d mc'
      | [] => pack_loop l vs' [] mc'
      end
  end.
(** monomial_order.hh 230-257 *)
Definition pack_grlex (vars : list var) (m : mono) : outcome Z :=
  match md m, vars with
  | [], _ | _, [] => Ok 0
  | _, _ =>
      let n := Z.of_nat (length vars) in
      if 1 <? n then pack_loop (64 / (n + 1)) vars (md m) (wrap64 (mg m)) else Ok (wrap64 (mg m))
  end.
(** monomial_order.hh 452-469 *)
Definition pack_lex (vars : list var) (m : mono) : outcome Z :=
  match md m, vars with
  | [], _ | _, [] => Ok 0
  | _, _ => pack_loop (64 / Z.of_nat (length vars)) vars (md m) 0
  end.

(** conversion uint64_t -> int64_t *)
Definition to_i64 (x : Z) : Z := if x <? two63 then x else x - two64.
Definition field (mc mod_ ll : Z) : outcome Z := shr64 strict (Z.land mc mod_) ll.
(** monomial_order.hh 271-277: [mc<<=l] first, [data().push_back] *)
Fixpoint unpack_grlex_loop (l ll mod_ : Z) (vs : list var) (mc : Z) : outcome (list (var * Z)) :=
  match vs with
  | [] => Ok []
  | v :: vs' =>
      mc' <- shl64 strict mc l ;;
      part <- field mc' mod_ ll ;;
      r <- unpack_grlex_loop l ll mod_ vs' mc' ;;
      Ok (if negb (part =? 0) then (v, to_i64 part) :: r else r)
  end.
Definition mask (a b : Z) : outcome Z :=
  x <- shl64 strict 1 a ;; y <- shl64 strict 1 b ;; Ok (wrap64 (x - y)).
(** monomial_order.hh 258-284 *)
Definition unpack_grlex (vars : list var) (mc : Z) : outcome mono :=
  match vars with
  | [] => Ok mono1
  | v0 :: _ =>
      if mc =? 0 then Ok mono1
      else
        let n := Z.of_nat (length vars) in
        if 1 <? n then
          let l := 64 / (n + 1) in
          let ll := l * n in
          mod_ <- mask (l * (n + 1)) ll ;;
          dg <- field mc mod_ ll ;;
          d <- unpack_grlex_loop l ll mod_ vars mc ;;
          Ok (Mono d (to_i64 dg))
        else Ok (mono_push mono1 (v0, to_i64 mc))
  end.
(** monomial_order.hh 485-492: [push_back] keeps the degree, then [mc<<=l] *)
Fixpoint unpack_lex_loop (l ll mod_ : Z) (vs : list var) (mc : Z) (m : mono) : outcome mono :=
  match vs with
  | [] => Ok m
  | v :: vs' =>
      part <- field mc mod_ ll ;;
      let m' := if negb (part =? 0) then mono_push m (v, to_i64 part) else m in
      mc' <- shl64 strict mc l ;;
      unpack_lex_loop l ll mod_ vs' mc' m'
  end.
(** monomial_order.hh 470-495 *)
Definition unpack_lex (vars : list var) (mc : Z) : outcome mono :=
  match vars with
  | [] => Ok mono1
  | _ =>
      if mc =? 0 then Ok mono1
      else
        let n := Z.of_nat (length vars) in
        let l := 64 / n in
        let ll := l * (n - 1) in
        mod_ <- (if l =? 64 then Ok (two64 - 1) else mask (l * n) ll) ;;
        unpack_lex_loop l ll mod_ vars mc mono1
  end.

(** monomial_order.hh 285-297 and 496-508 [__monomial_compression_div_mold]; [cnt] iterations *)
Fixpoint mold_loop (cnt : nat) (l mold : Z) : outcome Z :=
  match cnt with
  | O => Ok mold
  | S c =>
      m1 <- shl64 strict mold 1 ;;
      m2 <- shl64 strict (wrap64 (m1 + 1)) ((l - 1) mod 2 ^ 32) ;;
      mold_loop c l m2
  end.
Definition mold_grlex (n : nat) : outcome Z := mold_loop (S n) (64 / (Z.of_nat n + 1)) 0.
Definition mold_lex (n : nat) : outcome Z := mold_loop n (64 / Z.of_nat n) 0.

Record layout := Layout {
  lay_can : bool -> list mono -> list mono -> outcome (option (list var));
  lay_pack : list var -> mono -> outcome Z;
  lay_unpack : list var -> Z -> outcome mono;
  lay_mold : nat -> outcome Z;
}.
Definition grlex_layout : layout := Layout can_grlex pack_grlex unpack_grlex mold_grlex.
Definition lex_layout : layout := Layout can_lex pack_lex unpack_lex mold_lex.
End Pack.

Section Hooks.
Context {C : Type} (K : coefs C) (L : layout).

Definition cadd64 (a b : Z) : Z := wrap64 (a + b).
Definition pack_terms (vars : list var) (v : list (mono * C)) : outcome (list (Z * C)) :=
  mapM (fun t => c <- lay_pack L vars (fst t) ;; Ok (c, snd t)) v.
Definition unpack_terms (vars : list var) (v : list (Z * C)) : outcome (list (mono * C)) :=
  mapM (fun t => m <- lay_unpack L vars (fst t) ;; Ok (m, snd t)) v.

(** monomial.hh 220-309 [__pair_vec_multiplies_compression] *)
Definition mul_compress (v1 v2 : list (mono * C)) : outcome (option (list (mono * C))) :=
  match v1, v2 with
  | [], _ | _, [] => Ok None
  | _, _ =>
      o <- lay_can L false (map fst v1) (map fst v2) ;;
      match o with
      | None => Ok None
      | Some vars =>
          c2 <- pack_terms vars v2 ;;
          c1 <- pack_terms vars v1 ;;
          r <- heap_mul Z.gtb Z.eqb cadd64 K c1 c2 ;;
          out <- unpack_terms vars r ;;
          Ok (Some out)
      end
  end.

(** monomial.hh 401-425, 525-558: what the packed division does with a non-zero term: the divisibility
    test is [((m-g) & mold) == 0].  With remainder, the remainder coefficient [k2] is pushed. *)
Definition step_c (mold : Z) (g : Z * C) (m : Z) (k : C) : option (Z * C) * list (Z * C) :=
  let d := wrap64 (m - fst g) in
  if Z.land d mold =? 0 then
    let k1 := cquo K k (snd g) in
    let k2 := crem K k (snd g) in
    (if is0 K k1 then None else Some (d, k1), if is0 K k2 then [] else [(m, k2)])
  else (None, [(m, k)]).

Definition div_setup (v1 v2 : list (mono * C))
  : outcome (option (list var * Z * list (Z * C) * list (Z * C))) :=
  match v1, v2 with
  | [], _ | _, [] => Ok None
  | _, _ =>
      o <- lay_can L true (map fst v1) (map fst v2) ;;
      match o with
      | None => Ok None
      | Some vars =>
          c1 <- pack_terms vars v1 ;;
          c2 <- pack_terms vars v2 ;;
          mold <- lay_mold L (length vars) ;;
          Ok (Some (vars, mold, c1, c2))
      end
  end.
(** monomial.hh 311-433: quotient only (the same loop; the remainder terms are not recorded). *)
Definition div_compress (fuel : nat) (v1 v2 : list (mono * C)) : outcome (option (list (mono * C))) :=
  s <- div_setup v1 v2 ;;
  match s with
  | None => Ok None
  | Some (vars, mold, c1, c2) =>
      g <- aget c2 0 ;;
      '(q, _) <- heap_div Z.gtb Z.eqb cadd64 K (step_c mold g) c2 fuel c1 ;;
      out <- unpack_terms vars q ;;
      Ok (Some out)
  end.
(** monomial.hh 434-566: quotient and remainder. *)
Definition divrem_compress (fuel : nat) (v1 v2 : list (mono * C))
  : outcome (option (list (mono * C) * list (mono * C))) :=
  s <- div_setup v1 v2 ;;
  match s with
  | None => Ok None
  | Some (vars, mold, c1, c2) =>
      g <- aget c2 0 ;;
      '(q, r) <- heap_div Z.gtb Z.eqb cadd64 K (step_c mold g) c2 fuel c1 ;;
      oq <- unpack_terms vars q ;;
      orr <- unpack_terms vars r ;;
      Ok (Some (oq, orr))
  end.
End Hooks.
