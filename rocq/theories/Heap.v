(** * Model of the chained heap and of heap multiplication (basic.hh 349-552).

    Memory model.  The C++ code keeps an array [node] of records, an array [heap] of pointers to
    nodes and intrusive [next] links.  Here the pointer stored in [heap[i]] is the list of node values
    reachable through [next] ([[]] is [nullptr]); every array access is bounds checked and yields [UB]
    outside the allocation, and dereferencing a null pointer yields [UB].  Representing pointers by
    the values they reach is faithful because every node is reachable from exactly one of: a live
    heap slot, the [lin] buffer, or its own not-yet-released slot. *)
From Verif Require Import Prelude Coef.

Section Heap.
Context {M : Type} (gt eqM : M -> M -> bool).

(** basic.hh 348-354 [struct VHC]: [mono], [v1_ptr], [v2_ptr] (as indices); [next] is the list tail. *)
Record node := Node { nm : M; ni : nat; nj : nat }.
Local Notation chain := (list node).

(** [heap[i]->mono], basic.hh 371-372 and elsewhere *)
Definition hkey (H : list chain) (i : nat) : outcome M :=
  c <- aget H i ;;
  match c with [] => UB | n :: _ => Ok (nm n) end.

(** basic.hh 365-380 [VHC_extract], loop of lines 370-377; [s] is the decremented heap size. *)
Fixpoint extract_loop (fuel : nat) (H : list chain) (s i j : nat) : outcome (list chain * nat) :=
  match fuel with
  | O => OutOfFuel
  | S f =>
      if Nat.ltb j s then
        kj <- hkey H j ;;
        kj1 <- hkey H (j + 1) ;;
        let j' := if gt kj kj1 then j else j + 1 in
        kj' <- hkey H j' ;;
        ks <- hkey H s ;;
        if gt kj' ks then
          c <- aget H j' ;;
          H' <- aset H i c ;;
          extract_loop f H' s j' (2 * j' + 1)
        else Ok (H, i)
      else Ok (H, i)
  end.
Definition vhc_extract (H : list chain) (hs : nat) : outcome (list chain * nat) :=
  match hs with
  | O => UB   (* --heap_size would wrap around *)
  | S s =>
      '(H', i) <- extract_loop (S hs) H s 0 1 ;;
      c <- aget H' s ;;
      H'' <- aset H' i c ;;
      Ok (H'', s)
  end.

(** [(j-1)>>1], basic.hh 400, 405, 412 *)
Definition parent (i : nat) : nat := (i - 1) / 2.

(** basic.hh 400: [for (i=heap_size++, j=(i-1)>>1; i>0; heap[i]=heap[j], i=j, j=(j-1)>>1);] *)
Fixpoint shift_root (fuel : nat) (H : list chain) (i : nat) : outcome (list chain) :=
  match fuel with
  | O => OutOfFuel
  | S f =>
      if Nat.ltb 0 i then
        c <- aget H (parent i) ;;
        H' <- aset H i c ;;
        shift_root f H' (parent i)
      else Ok H
  end.
(** basic.hh 405: [for(i1=(heap_size-1)>>1; comp(new->mono,heap[i1]->mono); i1=(i1-1)>>1);]
    stepping above the root would wrap around and read out of bounds. *)
Fixpoint search_up (fuel : nat) (H : list chain) (x : M) (i1 : nat) : outcome nat :=
  match fuel with
  | O => OutOfFuel
  | S f =>
      k <- hkey H i1 ;;
      if gt x k then (if Nat.eqb i1 0 then UB else search_up f H x (parent i1)) else Ok i1
  end.
(** basic.hh 412: [for (i=heap_size++, j=(i-1)>>1; j!=i1; heap[i]=heap[j], i=j, j=(j-1)>>1);] *)
Fixpoint shift_to (fuel : nat) (H : list chain) (i i1 : nat) : outcome (list chain * nat) :=
  match fuel with
  | O => OutOfFuel
  | S f =>
      if Nat.eqb i 0 then UB    (* j has wrapped around *)
      else if Nat.eqb (parent i) i1 then Ok (H, i)
      else
        c <- aget H (parent i) ;;
        H' <- aset H i c ;;
        shift_to f H' (parent i) i1
  end.

(** basic.hh 381-416 [VHC_insert]. *)
Definition vhc_insert (H : list chain) (hs : nat) (n : node) : outcome (list chain * nat) :=
  if Nat.eqb hs 0 then
    H' <- aset H 0 [n] ;; Ok (H', 1)
  else
    k0 <- hkey H 0 ;;
    if eqM (nm n) k0 then
      c <- aget H 0 ;; H' <- aset H 0 (n :: c) ;; Ok (H', hs)
    else if gt (nm n) k0 then
      H' <- shift_root (S hs) H hs ;;
      H'' <- aset H' 0 [n] ;; Ok (H'', S hs)
    else
      i1 <- search_up (S hs) H (nm n) ((hs - 1) / 2) ;;
      k1 <- hkey H i1 ;;
      if eqM (nm n) k1 then
        c <- aget H i1 ;; H' <- aset H i1 (n :: c) ;; Ok (H', hs)
      else
        '(H', i) <- shift_to (S hs) H hs i1 ;;
        H'' <- aset H' i [n] ;; Ok (H'', S hs).

(** basic.hh 546-547: [while(lin_size>0) VHC_insert(heap,heap_size,lin[--lin_size],comp);]  [lin] is the buffer with its
    last element first. *)
Fixpoint insert_all (H : list chain) (hs : nat) (lin : list node) : outcome (list chain * nat) :=
  match lin with
  | [] => Ok (H, hs)
  | n :: r => '(H', hs') <- vhc_insert H hs n ;; insert_all H' hs' r
  end.
End Heap.
Arguments Node {M}.

(** ** Heap multiplication *)
Section Mul.
Context {M C : Type} (gt eqM : M -> M -> bool) (mmul : M -> M -> M) (K : coefs C).
Variables v1 v2 : list (M * C).

(** basic.hh 527, 530 [lin[lin_size++]=n]: the buffer has [v1_.size()] slots. *)
Definition lin_push (lin : list (@node M)) (n : @node M) : outcome (list (@node M)) :=
  if Nat.ltb (length lin) (length v1) then Ok (n :: lin) else UB.

(** basic.hh 524-539: the loop [while(heap[0]!=nullptr)] over the chain in [heap[0]]. *)
Fixpoint chain_loop (H : list (list (@node M))) (c : list (@node M)) (k : C) (reset : nat) (lin : list (@node M))
  : outcome (C * nat * list (@node M)) :=
  match c with
  | [] => Ok (k, reset, lin)
  | n :: c' =>
      a <- aget v1 (ni n) ;;
      b <- aget v2 (nj n) ;;
      let k' := cadd K k (cmul K (snd a) (snd b)) in
      '(reset', lin') <-
        (if Nat.eqb (nj n) 0 && negb (Nat.eqb reset (length v1)) then
           ch <- aget H reset ;;
           match ch with
           | [] => UB
           | n0 :: _ => l <- lin_push lin n0 ;; Ok (S reset, l)
           end
         else Ok (reset, lin)) ;;
      if negb (Nat.eqb (S (nj n)) (length v2)) then
        b' <- aget v2 (S (nj n)) ;;
        lin'' <- lin_push lin' (Node (mmul (fst a) (fst b')) (ni n) (S (nj n))) ;;
        chain_loop H c' k' reset' lin''
      else chain_loop H c' k' reset' lin'
  end.

(** basic.hh 523-542: [do { ... VHC_extract } while (heap_size>0 && heap[0]->mono==m)]. *)
Fixpoint round (fuel : nat) (H : list (list (@node M))) (hs : nat) (m : M) (k : C) (reset : nat)
  (lin : list (@node M)) : outcome (list (list (@node M)) * nat * C * nat * list (@node M)) :=
  match fuel with
  | O => OutOfFuel
  | S f =>
      c <- aget H 0 ;;
      '(k', reset', lin') <- chain_loop H c k reset lin ;;
      H1 <- aset H 0 [] ;;
      '(H2, hs2) <- vhc_extract gt H1 hs ;;
      if Nat.ltb 0 hs2 then
        m' <- hkey H2 0 ;;
        if eqM m' m then round f H2 hs2 m k' reset' lin'
        else Ok (H2, hs2, k', reset', lin')
      else Ok (H2, hs2, k', reset', lin')
  end.

(** basic.hh 518-548: the outer loop; [out] is new_v reversed. *)
Fixpoint mul_loop (fuel : nat) (H : list (list (@node M))) (hs reset : nat) (out : list (M * C))
  : outcome (list (M * C)) :=
  match fuel with
  | O => OutOfFuel
  | S f =>
      if Nat.eqb hs 0 then Ok (rev out)
      else
        m <- hkey H 0 ;;
        '(H1, hs1, k, reset1, lin) <- round (S (length v1)) H hs m (c0 K) reset [] ;;
        let out' := if is0 K k then out else (m, k) :: out in
        '(H2, hs2) <- insert_all gt eqM H1 hs1 lin ;;
        mul_loop f H2 hs2 reset1 out'
  end.

(** basic.hh 512-513: every slot starts with its own node at v2_begin. *)
Fixpoint init_heap (l : list (M * C)) (i : nat) (b : M) : list (list (@node M)) :=
  match l with
  | [] => []
  | t :: r => [Node (mmul (fst t) b) i 0] :: init_heap r (S i) b
  end.

(** basic.hh 495-551: the heap branch. *)
Definition heap_mul : outcome (list (M * C)) :=
  match v2 with
  | [] => UB      (* dereferences v2_.begin() *)
  | t :: _ => mul_loop (S (length v1 * length v2)) (init_heap v1 0 (fst t)) 1 1 []
  end.
End Mul.

(** basic.hh 451-494 [pair_vec_multiplies]: swap so that the first operand is the shorter, empty and
    single-term shortcuts, then the compressed multiplication if it applies ([compress] returns [None]
    when [__pair_vec_multiplies_compression] returns false), then the heap branch. *)
Definition pair_vec_multiplies {M C : Type} (gt eqM : M -> M -> bool) (mmul : M -> M -> M)
  (K : coefs C) (compress : list (M * C) -> list (M * C) -> outcome (option (list (M * C))))
  (v1_ v2_ : list (M * C)) : outcome (list (M * C)) :=
  let '(v1, v2) := if Nat.ltb (length v2_) (length v1_) then (v2_, v1_) else (v1_, v2_) in
  match v1 with
  | [] => Ok []
  | [t] => Ok (map (fun u => (mmul (fst t) (fst u), cmul K (snd t) (snd u))) v2)
  | _ =>
      r <- compress v1 v2 ;;
      match r with
      | Some out => Ok out
      | None => heap_mul gt eqM mmul K v1 v2
      end
  end.
