(** * Model of heap division (basic.hh 567-853).

    The four division routines (plain and with remainder, generic in basic.hh 567-696 and 697-853,
    packed in monomial.hh) share one loop and differ only in what they do with a non-zero accumulated
    term [(m,k)].  That is the parameter [step]: given [m] and [k] it returns the quotient term to push
    (if any) and the terms pushed to the remainder.

    Memory model as in Heap.v.  A node [Node m j t] is [node[t-1]]: [v1_ptr = j] indexes the quotient,
    [v2_ptr] points at divisor term [t].  [park[t-1]] is [Some j] while [node[t-1]] is outside heap and
    lin (with [v1_ptr = j]) and [None] while it is inside; re-inserting a node that is inside would link
    it twice and is [UB]. *)
From Verif Require Import Prelude Coef Heap.

Section Div.
Context {M C : Type} (gt eqM : M -> M -> bool) (mmul : M -> M -> M) (K : coefs C).
Variable step : M -> C -> option (M * C) * list (M * C).
Variable v2 : list (M * C).

Record dstate := DState {
  dH : list (list (@node M));   (* heap *)
  dhs : nat;                    (* heap_size *)
  dpark : list (option nat);
  dreset : nat;                 (* reset_h *)
  drest : list (M * C);         (* [v1_ptr, v1_end) *)
  dq : list (M * C);            (* new_v; v_size is its length *)
  dr : list (M * C);            (* R *)
}.

(** basic.hh 658, 804 [lin[lin_size++]=heap[0]]: [v2_.size()-1] slots (618-619, 764-765). *)
Definition dlin_push (lin : list (@node M)) (n : @node M) : outcome (list (@node M)) :=
  if Nat.ltb (length lin) (length v2 - 1) then Ok (n :: lin) else UB.

(** basic.hh 650-667 / 796-813: the loop over the chain in [heap[0]]. *)
Fixpoint dchain (q : list (M * C)) (c : list (@node M)) (k : C) (lin : list (@node M))
  (park : list (option nat)) (reset : nat) : outcome (C * list (@node M) * list (option nat) * nat) :=
  match c with
  | [] => Ok (k, lin, park, reset)
  | n :: c' =>
      a <- aget q (ni n) ;;
      b <- aget v2 (nj n) ;;
      let k' := csub K k (cmul K (snd a) (snd b)) in
      if negb (Nat.eqb (S (ni n)) (length q)) then
        a' <- aget q (S (ni n)) ;;
        lin' <- dlin_push lin (Node (mmul (fst a') (fst b)) (S (ni n)) (nj n)) ;;
        dchain q c' k' lin' park reset
      else
        park' <- aset park (nj n - 1) (Some (S (ni n))) ;;
        dchain q c' k' lin park' (S reset)
  end.

(** basic.hh 649-670 / 795-816: [while (heap_size>0 && heap[0]->mono==m)]. *)
Fixpoint drounds (fuel : nat) (q : list (M * C)) (H : list (list (@node M))) (hs : nat) (m : M) (k : C)
  (lin : list (@node M)) (park : list (option nat)) (reset : nat)
  : outcome (list (list (@node M)) * nat * C * list (@node M) * list (option nat) * nat) :=
  match fuel with
  | O => OutOfFuel
  | S f =>
      if Nat.ltb 0 hs then
        m' <- hkey H 0 ;;
        if eqM m' m then
          c <- aget H 0 ;;
          '(k', lin', park', reset') <- dchain q c k lin park reset ;;
          H1 <- aset H 0 [] ;;
          '(H2, hs2) <- vhc_extract gt H1 hs ;;
          drounds f q H2 hs2 m k' lin' park' reset'
        else Ok (H, hs, k, lin, park, reset)
      else Ok (H, hs, k, lin, park, reset)
  end.

(** basic.hh 681-686 / 834-839: the nodes [node[reset_h-1]], ..., [node[0]] re-entering the heap, in that
    order.  (The code inserts each as soon as its monomial is computed; the computation does not look
    at the heap, so the list is built first here.) *)
Fixpoint unpark (q : list (M * C)) (park : list (option nat)) (reset : nat)
  : outcome (list (@node M) * list (option nat)) :=
  match reset with
  | O => Ok ([], park)
  | S t0 =>
      p <- aget park t0 ;;
      match p with
      | None => UB
      | Some j =>
          a <- aget q j ;;
          b <- aget v2 (S t0) ;;
          park' <- aset park t0 None ;;
          '(l, park'') <- unpark q park' t0 ;;
          Ok (Node (mmul (fst a) (fst b)) j (S t0) :: l, park'')
      end
  end.

(** basic.hh 638-647 / 784-793: choice of the next term. *)
Definition next_term (H : list (list (@node M))) (hs : nat) (rest : list (M * C))
  : outcome (M * C * list (M * C)) :=
  match rest with
  | (m0, k0) :: r =>
      if Nat.eqb hs 0 then Ok (m0, k0, r)
      else
        h <- hkey H 0 ;;
        if gt h m0 then Ok (h, c0 K, rest) else Ok (m0, k0, r)
  | [] => h <- hkey H 0 ;; Ok (h, c0 K, [])
  end.

(** basic.hh 636-692 / 782-849: one iteration of the outer loop. *)
Definition diter (st : dstate) : outcome dstate :=
  '(m, k0, rest) <- next_term (dH st) (dhs st) (drest st) ;;
  '(H1, hs1, k, lin, park1, reset1) <-
     drounds (S (length v2)) (dq st) (dH st) (dhs st) m k0 [] (dpark st) (dreset st) ;;
  if is0 K k then
    '(H3, hs3) <- insert_all gt eqM H1 hs1 lin ;;
    Ok (DState H3 hs3 park1 reset1 rest (dq st) (dr st))
  else
    let '(oq, rr) := step m k in
    match oq with
    | None =>
        '(H3, hs3) <- insert_all gt eqM H1 hs1 lin ;;
        Ok (DState H3 hs3 park1 reset1 rest (dq st) (dr st ++ rr))
    | Some t =>
        let q' := dq st ++ [t] in
        '(ns, park2) <- unpark q' park1 reset1 ;;
        '(H2, hs2) <- insert_all gt eqM H1 hs1 ns ;;
        '(H3, hs3) <- insert_all gt eqM H2 hs2 lin ;;
        Ok (DState H3 hs3 park2 0 rest q' (dr st ++ rr))
    end.

Fixpoint dloop (fuel : nat) (st : dstate) : outcome (list (M * C) * list (M * C)) :=
  match fuel with
  | O => OutOfFuel
  | S f =>
      if Nat.eqb (dhs st) 0 && (match drest st with [] => true | _ => false end)
      then Ok (dq st, dr st)
      else st' <- diter st ;; dloop f st'
  end.

(** basic.hh 613-634 / 759-780: initial state; the heap array starts uninitialised. *)
Definition dinit (v1 : list (M * C)) : dstate :=
  DState (repeat [] (length v2 - 1)) 0 (repeat (Some 0) (length v2 - 1)) (length v2 - 1) v1 [] [].

Definition heap_div (fuel : nat) (v1 : list (M * C)) : outcome (list (M * C) * list (M * C)) :=
  dloop fuel (dinit v1).
End Div.

(** ** The two generic routines *)
Section Generic.
Context {M C : Type} (gt eqM : M -> M -> bool) (mmul : M -> M -> M) (mdiv : M -> M -> bool * M) (K : coefs C).

(** basic.hh 671-689: quotient only. *)
Definition step_q (g : M * C) (m : M) (k : C) : option (M * C) * list (M * C) :=
  let '(d, m1) := mdiv m (fst g) in
  if d then
    let k1 := cquo K k (snd g) in
    (if is0 K k1 then None else Some (m1, k1), [])
  else (None, []).

(** basic.hh 817-845: with remainder.  Line 825 pushes the whole accumulated coefficient [k], not the
    remainder [k2] of the coefficient division. *)
Definition step_qr (g : M * C) (m : M) (k : C) : option (M * C) * list (M * C) :=
  let '(d, m1) := mdiv m (fst g) in
  if d then
    let k1 := cquo K k (snd g) in
    let k2 := crem K k (snd g) in
    (if is0 K k1 then None else Some (m1, k1), if is0 K k2 then [] else [(m, k)])
  else (None, [(m, k)]).

(** basic.hh 598-610: single-term divisor, quotient only: a zero coefficient quotient is pushed. *)
Definition div1_q (g : M * C) (v1 : list (M * C)) : list (M * C) :=
  flat_map (fun i => let '(d, m) := mdiv (fst i) (fst g) in
                     if d then [(m, cquo K (snd i) (snd g))] else []) v1.

(** basic.hh 734-756: single-term divisor, with remainder: the remainder coefficient is pushed with the
    quotient monomial [m]. *)
Definition div1_qr (g : M * C) (v1 : list (M * C)) : list (M * C) * list (M * C) :=
  (flat_map (fun i => let '(d, m) := mdiv (fst i) (fst g) in
       if d then (let k := cquo K (snd i) (snd g) in if is0 K k then [] else [(m, k)]) else []) v1,
   flat_map (fun i => let '(d, m) := mdiv (fst i) (fst g) in
       if d then (let k1 := crem K (snd i) (snd g) in if is0 K k1 then [] else [(m, k1)]) else [i]) v1).

(** basic.hh 567-612 [pair_vec_div] without remainder; [compress] is [__pair_vec_div_compression]. *)
Definition pair_vec_div (fuel : nat)
  (compress : list (M * C) -> list (M * C) -> outcome (option (list (M * C))))
  (v1 v2 : list (M * C)) : outcome (list (M * C)) :=
  match v2 with
  | [] => Throw
  | g :: gs =>
      match v1 with
      | [] => Ok []
      | _ =>
          match gs with
          | [] => Ok (div1_q g v1)
          | _ =>
              r <- compress v1 v2 ;;
              match r with
              | Some q => Ok q
              | None => omap fst (heap_div gt eqM mmul K (step_q g) v2 fuel v1)
              end
          end
      end
  end.

(** basic.hh 697-758 [pair_vec_div] with remainder. *)
Definition pair_vec_div_rem (fuel : nat)
  (compress : list (M * C) -> list (M * C) -> outcome (option (list (M * C) * list (M * C))))
  (v1 v2 : list (M * C)) : outcome (list (M * C) * list (M * C)) :=
  match v2 with
  | [] => Throw
  | g :: gs =>
      match v1 with
      | [] => Ok ([], [])
      | _ =>
          match gs with
          | [] => Ok (div1_qr g v1)
          | _ =>
              r <- compress v1 v2 ;;
              match r with
              | Some q => Ok q
              | None => heap_div gt eqM mmul K (step_qr g) v2 fuel v1
              end
          end
      end
  end.
End Generic.
