(** * Model of associatedgraph.hh / associatedgraph.cc: graphs, associated graph, MCS, MCS-M, elimination game,
    connected branches.

    std::set<uint64_t> is a strictly ascending list; std::vector<std::set<uint64_t>> a list of them.  Indices are
    natural numbers (sizes are far below 2^64).  The work arrays of the searches are total functions of the index:
    the guard [in_range] makes every access to them in range, an adjacency list with an index >= size is undefined
    behaviour.  Nodes are trivially copyable (as [variable] is): add_node reads its argument after std::move. *)
From Verif Require Import Prelude Coef Spec Mono PolyOps.

(** std::set::insert *)
Fixpoint set_insert (x : nat) (s : list nat) : list nat :=
  match s with
  | [] => [x]
  | y :: s' => if x <? y then x :: s else if x =? y then s else y :: set_insert x s'
  end.
Definition set_mem (x : nat) (s : list nat) : bool := existsb (Nat.eqb x) s.

Record graph (A : Type) := Graph { nodes : list A; mnode : list (A * nat); adj : list (list nat) }.
Arguments Graph {A}. Arguments nodes {A}. Arguments mnode {A}. Arguments adj {A}.
Definition empty_graph {A} : graph A := Graph [] [] [].

(** __adjacency_list[a].insert(b) *)
Definition adj_insert (g : list (list nat)) (a b : nat) : list (list nat) := lset g a (set_insert b (nth a g [])).

Section Nodes.
Context {A : Type} (eqb : A -> A -> bool).
(** std::map::find on __mnode: the key's index *)
Fixpoint mfind (a : A) (m : list (A * nat)) : option nat :=
  match m with [] => None | (x, i) :: m' => if eqb x a then Some i else mfind a m' end.
(** size, hh 61 *)
Definition gsize (g : graph A) : nat := length (nodes g).
(** add_node, hh 63-72 *)
Definition add_node (g : graph A) (c : A) : graph A :=
  match mfind c (mnode g) with
  | Some _ => g
  | None => Graph (nodes g ++ [c]) ((c, length (nodes g)) :: mnode g) (adj g ++ [[]])
  end.
(** the search-or-add of add_edge, hh 77-94 *)
Definition find_or_add (g : graph A) (a : A) : graph A * nat :=
  match mfind a (mnode g) with
  | Some i => (g, i)
  | None => let g' := add_node g a in (g', gsize g' - 1)
  end.
(** add_edge by index, hh 106-114 (and add_edge_index, 101-104): the assert makes a bad index undefined behaviour *)
Definition put_edge (g : graph A) (na nb : nat) (directed : bool) : graph A :=
  let a1 := adj_insert (adj g) na nb in
  Graph (nodes g) (mnode g) (if directed then a1 else adj_insert a1 nb na).
Definition add_edge_index (g : graph A) (na nb : nat) (directed : bool) : outcome (graph A) :=
  if (na <? gsize g) && (nb <? gsize g) then Ok (put_edge g na nb directed) else UB.
(** add_edge by node, hh 74-100 *)
Definition add_edge (g : graph A) (a b : A) (directed : bool) : graph A :=
  let (g1, na) := find_or_add g a in
  let (g2, nb) := find_or_add g1 b in
  put_edge g2 na nb directed.
(** is_edge by index and by node, hh 116-149 *)
Definition is_edge_index (g : graph A) (na nb : nat) : outcome bool :=
  if (na <? gsize g) && (nb <? gsize g) then Ok (set_mem nb (nth na (adj g) [])) else UB.
Definition is_edge (g : graph A) (a b : A) : bool :=
  match mfind a (mnode g), mfind b (mnode g) with
  | Some na, Some nb => set_mem nb (nth na (adj g) [])
  | _, _ => false
  end.
(** index, hh 55-59: the assert *)
Definition gindex (g : graph A) (a : A) : outcome nat :=
  match mfind a (mnode g) with Some i => Ok i | None => UB end.
End Nodes.

(** associatedgraph, hh 174-189.  [seen] are the variables before the iterator. *)
Section Assoc.
Context {C : Type} (vo : vorder).
Fixpoint assoc_vars (g : graph var) (seen vs : list var) : graph var :=
  match vs with
  | [] => g
  | v :: vs' =>
      let g1 := add_node N.eqb g v in
      let g2 := fold_left (fun g u => add_edge N.eqb g v u false) seen g1 in
      assoc_vars g2 (seen ++ [v]) vs'
  end.
Definition associatedgraph (ps : list (poly C)) : graph var :=
  fold_left (fun g p => assoc_vars g [] (map fst (get_variables vo p))) ps empty_graph.
End Assoc.

Definition fupd {X} (f : nat -> X) (i : nat) (x : X) : nat -> X := fun j => if j =? i then x else f j.
Definition in_range (g : list (list nat)) : bool := forallb (forallb (fun j => j <? length g)) g.

(** ** Maximum cardinality search, associatedgraph.cc 10-46 and 47-133.
    [rnd i j] is the outcome of std::rand() > RAND_MAX/2 asked in round i at index j: any function. *)
Section Search.
Variable rnd : nat -> nat -> bool.
(** cc 20-37, 67-84: the choice of windex; [None] while tmp_b *)
Definition pick_step (i : nat) (w : nat -> nat) (num : nat -> bool) (best : option (nat * nat)) (j : nat) : option (nat * nat) :=
  match best with
  | None => if num j then None else Some (w j, j)
  | Some (wmax, windex) =>
      if num j then best
      else if wmax <? w j then Some (w j, j)
      else if (w j =? wmax) && rnd i j then Some (wmax, j) else best
  end.
Definition pick (n i : nat) (w : nat -> nat) (num : nat -> bool) : option (nat * nat) :=
  fold_left (pick_step i w num) (seq 0 n) None.
(** __MCS.  l is filled from its last place to its first, so a new vertex is put in front. *)
Fixpoint mcs_loop (g : list (list nat)) (i : nat) (w : nat -> nat) (num : nat -> bool) (l : list nat) : outcome (list nat) :=
  match i with
  | O => Ok l
  | S i' =>
      match pick (length g) i w num with
      | None => UB
      | Some (_, v) =>
          let num' := fupd num v true in
          let w' := fold_left (fun w j => if num' j then w else fupd w j (S (w j))) (nth v g []) w in
          mcs_loop g i' w' num' (v :: l)
      end
  end.
Definition mcs (g : list (list nat)) : outcome (list nat) :=
  if in_range g then mcs_loop g (length g) (fun _ => 0) (fun _ => false) [] else UB.

(** The state of the search of __MCS_M, cc 87-127: g, tmp_1 (None is -1), tmp_2, tmp_3, tmp_4, tmp_end *)
Record bfs_state := Bfs { bg : list (list nat); t1 : nat -> option nat; t2 : nat -> nat; t3 : nat -> bool; t4 : nat -> bool; te : nat }.
Definition less_inf (a : nat) (b : option nat) : bool := match b with None => true | Some b => a <? b end.
(** cc 104-127: the body for one neighbour j of x; [d] is tmp_1[x].  g[x] is not modified while it is traversed
    (an insertion concerns g[j] with j <> x, and g[windex] only at a j that is not in it). *)
Definition relax (n v : nat) (w : nat -> nat) (num : nat -> bool) (x : nat) (s : bfs_state) (j : nat) : bfs_state :=
  if (j =? x) || num j then s
  else
    let d := match t1 s x with Some d => d | None => 0 end in
    let lt := d <? w j in
    let t5 := if lt then w j else d in
    let fill := lt && negb (t4 s j) in
    let g' := if fill then adj_insert (adj_insert (bg s) j v) v j else bg s in
    let t4' := if fill then fupd (t4 s) j true else t4 s in
    if less_inf t5 (t1 s j) then
      if t3 s j then Bfs g' (fupd (t1 s) j (Some t5)) (t2 s) (t3 s) t4' (te s)
      else Bfs g' (fupd (t1 s) j (Some t5)) (fupd (t2 s) (te s mod n) j) (fupd (t3 s) j true) t4' (S (te s))
    else Bfs g' (t1 s) (t2 s) (t3 s) t4' (te s).
(** cc 99-127 *)
Fixpoint bfs (fuel n v : nat) (w : nat -> nat) (num : nat -> bool) (tb : nat) (s : bfs_state) : outcome (list (list nat)) :=
  if tb =? te s then Ok (bg s)
  else match fuel with
       | O => OutOfFuel
       | S f =>
           let x := t2 s (tb mod n) in
           let s1 := Bfs (bg s) (t1 s) (t2 s) (fupd (t3 s) x false) (t4 s) (te s) in
           bfs f n v w num (S tb) (fold_left (relax n v w num x) (nth x (bg s) []) s1)
       end.
Definition bfs_start (g : list (list nat)) (v : nat) : bfs_state :=
  Bfs g (fupd (fun _ => None) v (Some 0)) (fupd (fun _ => 0) 0 v) (fupd (fun _ => false) v true)
      (fun j => set_mem j (nth v g [])) 1.
Fixpoint mcsm_loop (fuel : nat) (g : list (list nat)) (i : nat) (w : nat -> nat) (num : nat -> bool) (l : list nat) : outcome (list (list nat) * list nat) :=
  match i with
  | O => Ok (g, l)
  | S i' =>
      let n := length g in
      match pick n i w num with
      | None => UB
      | Some (_, v) =>
          let num' := fupd num v true in
          match i' with
          | O => Ok (g, v :: l)
          | _ =>
              g' <- bfs fuel n v w num' 0 (bfs_start g v) ;;
              let w' := fold_left (fun w j => fupd w j (S (w j))) (nth v g' []) w in
              mcsm_loop fuel g' i' w' num' (v :: l)
          end
      end
  end.
Definition mcs_m (fuel : nat) (g : list (list nat)) : outcome (list (list nat) * list nat) :=
  if in_range g then mcsm_loop fuel g (length g) (fun _ => 0) (fun _ => false) [] else UB.

Section Public.
Context {A : Type} (eqb : A -> A -> bool).
Definition node_list (g : graph A) (l : list nat) : outcome (list A) :=
  fold_right (fun i r => a <- aget (nodes g) i ;; r <- r ;; Ok (a :: r)) (Ok []) l.
(** chordal_completion(gout, gin, l) and chordal_completion(gout, gin), hh 194-213 *)
Definition chordal_completion_index (fuel : nat) (g : graph A) : outcome (graph A * list nat) :=
  '(a, l) <- mcs_m fuel (adj g) ;; Ok (Graph (nodes g) (mnode g) a, l).
Definition chordal_completion (fuel : nat) (g : graph A) : outcome (graph A * list A) :=
  '(g', l) <- chordal_completion_index fuel g ;; l' <- node_list g l ;; Ok (g', l').
(** perfect_elimination_ordering, hh 222-232 *)
Definition perfect_elimination_ordering (g : graph A) : outcome (list A) :=
  l <- mcs (adj g) ;; node_list g l.

(** elimination_game, hh 318-346.  [h j]: j is not eliminated yet.  The C++ code iterates over g[i1] itself; it is not
    modified meanwhile, since every edge added joins two nodes other than i1 (h[i1] is false), so a snapshot is the same. *)
Fixpoint game_pairs (g : graph A) (l1 : list nat) (h : nat -> bool) : outcome (graph A) :=
  match l1 with
  | [] => Ok g
  | j1 :: l1' =>
      g' <- (if h j1 then fold_left (fun (g : outcome (graph A)) j2 => g <- g ;; if h j2 then add_edge_index g j1 j2 false else Ok g) l1' (Ok g) else Ok g) ;;
      game_pairs g' l1' h
  end.
Fixpoint game_loop (g : graph A) (l : list A) (h : nat -> bool) : outcome (graph A) :=
  match l with
  | [] => Ok g
  | a :: l' =>
      i1 <- gindex eqb g a ;;
      let h' := fupd h i1 false in
      g' <- game_pairs g (nth i1 (adj g) []) h' ;;
      game_loop g' l' h'
  end.
Definition elimination_game (g : graph A) (l : list A) : outcome (graph A) := game_loop g l (fun _ => true).
End Public.
End Search.

(** ** connected branches, cc 134-171.  State: the branch being built and l2 (not visited yet). *)
Fixpoint branch_walk (fuel : nat) (g : list (list nat)) (x : nat) (s : list nat * (nat -> bool)) : outcome (list nat * (nat -> bool)) :=
  match fuel with
  | O => OutOfFuel
  | S f =>
      fold_left (fun (s : outcome (list nat * (nat -> bool))) j => s <- s ;; let '(b, l2) := s in
                   if l2 j then branch_walk f g j (b ++ [j], fupd l2 j false) else Ok (b, l2)) (nth x g []) (Ok s)
  end.
Definition branches (fuel : nat) (g : list (list nat)) : outcome (list (list nat)) :=
  if in_range g then
    r <- fold_left (fun (s : outcome (list (list nat) * (nat -> bool))) i => s <- s ;; let '(l1, l2) := s in
                      if l2 i then '(b, l2') <- branch_walk fuel g i ([], l2) ;; Ok (l1 ++ [b], l2') else Ok (l1, l2))
                   (seq 0 (length g)) (Ok ([], fun _ => true)) ;;
    Ok (fst r)
  else UB.
(** connected_branch, hh 276-291 (the local l2 is empty again after std::move) *)
Definition connected_branch {A} (fuel : nat) (g : graph A) : outcome (list (list A)) :=
  l <- branches fuel (adj g) ;;
  fold_right (fun b (r : outcome (list (list A))) => b' <- node_list g b ;; r <- r ;; Ok (b' :: r)) (Ok []) l.
(** connected_branch_graph, hh 293-307 *)
Fixpoint clique_edges {A} (g : graph A) (b : list nat) : outcome (graph A) :=
  match b with
  | [] => Ok g
  | i :: b' =>
      g' <- fold_left (fun (g : outcome (graph A)) j => g <- g ;; add_edge_index g i j false) b' (Ok g) ;;
      clique_edges g' b'
  end.
Definition connected_branch_graph {A} (fuel : nat) (g : graph A) : outcome (graph A) :=
  l <- branches fuel (adj g) ;;
  fold_left (fun (g : outcome (graph A)) b => g <- g ;; clique_edges g b) l (Ok g).
