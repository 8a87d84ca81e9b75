(** * C39: graphs, the associated graph, chordal completion, perfect elimination orderings, elimination game,
    connected branches.

    Everything is stated through what the graph shows its user: [nodes] and [is_edge]. *)
From Coq Require Import Sorted Permutation Relation_Operators.
From Verif Require Import Prelude Coef Spec SpecProofs SpecOps SpecOpsProofs GcdDom GcdPoly GcdMath OrderSpec PairVec PairVecProofs
  Mono MonoProofs MonoStruct MonoStructProofs Library LibraryProofs Poly PolyOps PolyOpsGen PolyOpsProofs PolyOps2Proofs
  Graph GraphMath GraphMcs GraphMcsM GraphProofs GraphMcs1 GraphBranch Props_Div Props_Ops.

Section Spec.
Context {A : Type} (eqb : A -> A -> bool).
(** the graphs a program can get hold of *)
Inductive graph_history : graph A -> Prop :=
| gh_empty : graph_history empty_graph
| gh_node g c : graph_history g -> graph_history (add_node eqb g c)
| gh_edge g a b directed : graph_history g -> graph_history (add_edge eqb g a b directed)
| gh_index g i j directed g' : graph_history g -> add_edge_index g i j directed = Ok g' -> graph_history g'.
Definition undirected_graph (g : graph A) : Prop := forall a b, is_edge eqb g a b = true -> is_edge eqb g b a = true.
(** l lists every node once, and the neighbours of a node that come after it in l are pairwise joined *)
Definition perfect_elimination (g : graph A) (l : list A) : Prop :=
  Permutation l (nodes g) /\
  forall l1 x l2 y z, l = l1 ++ x :: l2 -> In y l2 -> In z l2 -> y <> z ->
    is_edge eqb g x y = true -> is_edge eqb g x z = true -> is_edge eqb g y z = true.
(** every cycle of length >= 4 has a chord: there are no distinct x 0, ..., x r, 3 <= r, of which exactly the
    consecutive ones (and the first and last) are joined *)
Definition chordal (g : graph A) : Prop :=
  ~ exists r (x : nat -> A), 3 <= r /\ forall i j, i < j -> j <= r ->
      x i <> x j /\ (is_edge eqb g (x i) (x j) = true <-> j = S i \/ (i = 0 /\ j = r)).
Definition connected (g : graph A) : A -> A -> Prop := clos_refl_trans_1n A (fun a b => is_edge eqb g a b = true).
End Spec.

Section Api.
Context {A : Type} (eqb : A -> A -> bool).
Hypothesis eqb_ok : forall a b, eqb a b = true <-> a = b.
Lemma history_wf g : graph_history eqb g -> wf_graph eqb g.
Proof.
  induction 1 as [|g c H W|g a b d H W|g i j d g' H W E].
  - apply wf_empty.
  - apply (add_node_ok eqb eqb_ok g c W).
  - apply (add_edge_ok eqb eqb_ok g a b d W).
  - unfold add_edge_index in E. destruct ((i <? gsize g) && (j <? gsize g)) eqn:B; [|discriminate]. injection E as <-.
    apply andb_prop in B as [B1 B2]. apply Nat.ltb_lt in B1, B2. unfold gsize in *.
    destruct (nth_error (nodes g) i) as [a|] eqn:Ei; [|apply nth_error_None in Ei; lia]. destruct (nth_error (nodes g) j) as [b|] eqn:Ej; [|apply nth_error_None in Ej; lia].
    apply (put_edge_ok eqb g i j a b d W Ei Ej).
Qed.
Lemma und_iff g : wf_graph eqb g -> (undirected_graph eqb g <-> undirected g).
Proof. intros W. split; intros H a b X; apply (is_edge_ok eqb g _ _ W); apply H; apply (is_edge_ok eqb g _ _ W); exact X. Qed.
End Api.

(** ** The graph type: what add_node and add_edge do, and nothing else *)
Theorem C39_graph_api : forall A (eqb : A -> A -> bool), (forall a b, eqb a b = true <-> a = b) ->
  forall g, graph_history eqb g ->
  NoDup (nodes g) /\
  (forall x y, is_edge eqb g x y = true -> In x (nodes g) /\ In y (nodes g)) /\
  (forall c, (forall x, In x (nodes (add_node eqb g c)) <-> In x (nodes g) \/ x = c) /\
             (forall x y, is_edge eqb (add_node eqb g c) x y = is_edge eqb g x y)) /\
  (forall a b directed,
     (forall x, In x (nodes (add_edge eqb g a b directed)) <-> In x (nodes g) \/ x = a \/ x = b) /\
     (forall x y, is_edge eqb (add_edge eqb g a b directed) x y = true <->
        is_edge eqb g x y = true \/ (x = a /\ y = b) \/ (directed = false /\ x = b /\ y = a))) /\
  (forall a i, gindex eqb g a = Ok i <-> nth_error (nodes g) i = Some a) /\
  (forall i j a b directed, nth_error (nodes g) i = Some a -> nth_error (nodes g) j = Some b ->
     is_edge_index g i j = Ok (is_edge eqb g a b) /\
     exists g', add_edge_index g i j directed = Ok g' /\ nodes g' = nodes g /\
       forall x y, is_edge eqb g' x y = is_edge eqb (add_edge eqb g a b directed) x y).
Proof.
  intros A eqb eqb_ok g H. pose proof (history_wf eqb eqb_ok g H) as W. split; [apply (wf_nodup eqb g W)|]. split.
  { intros x y E. apply (is_edge_ok eqb g x y W) in E as (i & j & Hi & Hj & _). split; eapply nth_error_In; eassumption. }
  assert (BE : forall g1 g2 x y, wf_graph eqb g1 -> wf_graph eqb g2 -> (joined g1 x y <-> joined g2 x y) -> is_edge eqb g1 x y = is_edge eqb g2 x y).
  { intros g1 g2 x y W1 W2 J. destruct (is_edge eqb g1 x y) eqn:E1, (is_edge eqb g2 x y) eqn:E2; try reflexivity; exfalso.
    - apply (is_edge_ok eqb g1 x y W1), J, (is_edge_ok eqb g2 x y W2) in E1. congruence.
    - apply (is_edge_ok eqb g2 x y W2), J, (is_edge_ok eqb g1 x y W1) in E2. congruence. }
  split; [|split; [|split]].
  - intros c. destruct (add_node_ok eqb eqb_ok g c W) as (W1 & N1 & J1 & _). split; [exact N1|]. intros x y. apply BE; auto.
  - intros a b d. destruct (add_edge_ok eqb eqb_ok g a b d W) as (W1 & N1 & J1). split; [exact N1|]. intros x y. cbv zeta in *. rewrite (is_edge_ok eqb _ x y W1), J1, (is_edge_ok eqb g x y W). reflexivity.
  - intros a i. unfold gindex. rewrite <- (w_find eqb g W). destruct (mfind eqb a (mnode g)); split; congruence.
  - intros i j a b d Ei Ej. assert (B : (i <? gsize g) && (j <? gsize g) = true).
    { apply andb_true_intro. unfold gsize. split; apply Nat.ltb_lt, nth_error_Some; congruence. }
    unfold is_edge_index, add_edge_index. rewrite B. split.
    + f_equal. unfold is_edge. rewrite (proj2 (w_find eqb g W a i) Ei), (proj2 (w_find eqb g W b j) Ej). reflexivity.
    + exists (put_edge g i j d). split; [reflexivity|]. destruct (put_edge_ok eqb g i j a b d W Ei Ej) as (W1 & N1 & _ & _ & J1). split; [exact N1|]. intros x y.
      destruct (add_edge_ok eqb eqb_ok g a b d W) as (W2 & _ & J2). apply BE; [exact W1|exact W2|]. cbv zeta in *. rewrite J1, J2. reflexivity.
Qed.
Print Assumptions C39_graph_api.

(** ** The associated graph: its nodes are the variables that occur in some polynomial, and two of them are joined
    exactly if they are different and occur together in one polynomial. *)
Definition occurs {C} (K : coefs C) (x : var) (p : poly C) : Prop := exists d, (0 < d)%N /\ deg_is K (graw sm p) x d.
Theorem C39_associated_graph : forall vo S C (K : coefs C), lib_poly vo S -> ring_ok K ->
  forall ps, (forall p, In p ps -> normal (mok vo) (m_gt S) K p) ->
  let g := associatedgraph vo ps in
  graph_history N.eqb g /\ undirected_graph N.eqb g /\
  (forall x, In x (nodes g) <-> exists p, In p ps /\ occurs K x p) /\
  (forall x y, is_edge N.eqb g x y = true <-> x <> y /\ exists p, In p ps /\ occurs K x p /\ occurs K y p).
Proof.
  intros vo S C K HS HK ps HN g.
  assert (Oc : forall p x, In p ps -> (In x (map fst (get_variables vo p)) <-> occurs K x p)).
  { intros p x Hp. destruct (C25_get_variables vo S C K HS HK p (HN p Hp)) as [_ V]. destruct HS as [Hv HS]. apply lib_vorder_ok in Hv.
    assert (HS' : S = lexS vo \/ S = grlexS vo) by (destruct HS; [left|right]; reflexivity || assumption).
    destruct (p_degree_spec vo Hv S HS' K HK p x (HN p Hp)) as [D0 D]. split.
    - intros H. apply in_map_iff in H as ([x' d] & E & H). cbn [fst] in E. subst x'. apply V in H as [H0 H]. exists (Z.to_N (p_degree p x)). split; [lia|exact D].
    - intros (d & Hd & Dd). pose proof (deg_is_unique K _ _ _ _ D Dd) as E. apply in_map_iff. exists (x, p_degree p x). split; [reflexivity|]. apply V. split; [lia|reflexivity]. }
  assert (Hist : graph_history N.eqb g).
  { unfold g, associatedgraph. clear. assert (H0 : graph_history N.eqb (@empty_graph var)) by constructor. revert H0. generalize (@empty_graph var).
    induction ps as [|p ps IH]; intros g H; cbn [fold_left]; [exact H|]. apply IH. clear IH ps. generalize (@nil var). revert g H. induction (map fst (get_variables vo p)) as [|v vs IH]; intros g H seen; cbn [assoc_vars]; [exact H|].
    apply IH. assert (H1 : graph_history N.eqb (add_node N.eqb g v)) by (constructor; exact H). revert H1. generalize (add_node N.eqb g v). clear. induction seen as [|u seen IH]; intros g H; cbn [fold_left]; [exact H|]. apply IH. constructor. exact H. }
  pose proof (history_wf N.eqb N.eqb_eq g Hist) as W.
  destruct (associated_ok vo ps) as (_ & Nd & J). { intros p Hp. apply (C25_get_variables vo S C K HS HK p (HN p Hp)). } fold g in Nd, J.
  assert (JE : forall x y, is_edge N.eqb g x y = true <-> x <> y /\ exists p, In p ps /\ occurs K x p /\ occurs K y p).
  { intros x y. rewrite (is_edge_ok N.eqb g x y W), J. split; intros [H (p & Hp & H1 & H2)]; (split; [exact H|]; exists p; split; [exact Hp|]; split; apply Oc; assumption). }
  split; [exact Hist|]. split; [|split; [|exact JE]].
  - intros x y H. apply JE in H as [H (p & Hp & H1 & H2)]. apply JE. split; [congruence|]. exists p. auto.
  - intros x. rewrite Nd. split; intros (p & Hp & H); exists p; (split; [exact Hp|]; apply Oc; assumption).
Qed.
Print Assumptions C39_associated_graph.

(** ** Chordal completion: for every undirected graph and every sequence of random choices, the search ends and
    returns a supergraph on the same nodes, and a perfect elimination ordering of it. *)
Theorem C39_chordal_completion : forall A (eqb : A -> A -> bool), (forall a b, eqb a b = true <-> a = b) ->
  forall rnd g, graph_history eqb g -> undirected_graph eqb g ->
  exists g' l, terminates_with (fun fuel => chordal_completion rnd fuel g) (g', l) /\
    nodes g' = nodes g /\ undirected_graph eqb g' /\
    (forall x y, is_edge eqb g x y = true -> is_edge eqb g' x y = true) /\
    perfect_elimination eqb g' l.
Proof.
  intros A eqb eqb_ok rnd g H U. pose proof (history_wf eqb eqb_ok g H) as W. apply (und_iff eqb g W) in U.
  destruct (mcs_m_ok rnd (adj g) (w_adj eqb g W) (proj1 (undirected_iff eqb eqb_ok g W) U)) as (m & a' & l & T & P & La & Wa & Sa & Sup & PO).
  set (g' := Graph (nodes g) (mnode g) a'). rewrite (w_len eqb g W) in La, P.
  assert (W' : wf_graph eqb g') by (constructor; [apply (w_find eqb g W)|exact La|exact Wa]).
  destruct (node_list_ok g l) as (l' & El & F). { intros i Hi. apply (Permutation_in _ P), in_seq in Hi. lia. }
  exists g', l'. split.
  { exists m. intros fuel Hf. unfold chordal_completion, chordal_completion_index. rewrite (T fuel Hf). cbn [obind]. rewrite El. reflexivity. }
  split; [reflexivity|]. split; [apply (und_iff eqb g' W'), (undirected_iff eqb eqb_ok g' W'), Sa|]. split.
  { intros x y E. apply (is_edge_ok eqb g' x y W'). apply (is_edge_ok eqb g x y W) in E as (i & j & Hi & Hj & E). exists i, j. split; [exact Hi|]. split; [exact Hj|]. apply Sup, E. }
  split; [exact (node_list_perm g l l' (wf_nodup eqb g W) P F)|].
  intros l1 x l2 y z E Hy Hz Nyz Exy Exz. destruct (forall2_split _ l l' l1 x l2 F E) as (k1 & i & k2 & Ek & _ & Hi & F2).
  destruct (forall2_in _ k2 l2 y F2 Hy) as (j & Hj & Ej). destruct (forall2_in _ k2 l2 z F2 Hz) as (k & Hk & Ekk).
  apply (is_edge_ok eqb g' _ _ W') in Exy, Exz. apply (is_edge_ok eqb g' _ _ W'). apply (joined_index eqb g' _ _ i j W' Hi Ej) in Exy. apply (joined_index eqb g' _ _ i k W' Hi Ekk) in Exz.
  exists j, k. split; [exact Ej|]. split; [exact Ekk|]. apply (PO k1 i k2 j k Ek Hj Hk); [congruence|exact Exy|exact Exz].
Qed.
Print Assumptions C39_chordal_completion.

(** ** perfect_elimination_ordering: for every undirected graph a permutation of the nodes; perfect if the graph
    is chordal, for every sequence of random choices. *)
Theorem C39_perfect_elimination_ordering : forall A (eqb : A -> A -> bool), (forall a b, eqb a b = true <-> a = b) ->
  forall rnd g, graph_history eqb g -> undirected_graph eqb g ->
  exists l, perfect_elimination_ordering rnd g = Ok l /\ Permutation l (nodes g) /\
    ((forall a, is_edge eqb g a a = false) -> chordal eqb g -> perfect_elimination eqb g l).
Proof.
  intros A eqb eqb_ok rnd g H U. pose proof (history_wf eqb eqb_ok g H) as W. apply (und_iff eqb g W) in U.
  pose proof (proj1 (undirected_iff eqb eqb_ok g W) U) as Sy.
  destruct (mcs_ok rnd (adj g) (w_adj eqb g W)) as (l & T & Ho & P). pose proof P as P0. rewrite (w_len eqb g W) in P.
  destruct (node_list_ok g l) as (l' & El & F). { intros i Hi. apply (Permutation_in _ P), in_seq in Hi. lia. }
  exists l'. split; [unfold perfect_elimination_ordering; rewrite T; cbn [obind]; exact El|].
  assert (P' : Permutation l' (nodes g)) by exact (node_list_perm g l l' (wf_nodup eqb g W) P F). split; [exact P'|]. intros Irr Ch. split; [exact P'|].
  assert (PO : perfect_order (adj g) l).
  { apply (mcs_perfect rnd (adj g) Sy l); [| |exact Ho|exact P0].
    - intros i E. pose proof (proj2 (w_adj eqb g W i) i E) as [Li _]. rewrite (w_len eqb g W) in Li. destruct (nth_error (nodes g) i) as [a|] eqn:Ei; [|apply nth_error_None in Ei; lia].
      assert (X : is_edge eqb g a a = true) by (apply (is_edge_ok eqb g a a W); exists i, i; auto). rewrite Irr in X. discriminate.
    - intros (r & x & Lr & Hx). apply Ch.
      assert (Lx : forall i, i <= r -> x i < length (nodes g)).
      { intros i Hi. rewrite <- (w_len eqb g W). destruct (Nat.eq_dec i r) as [->|Ni].
        - assert (E : edge (adj g) (x 0) (x r)) by (apply (proj2 (Hx 0 r ltac:(lia) ltac:(lia))); right; auto). apply (w_adj eqb g W) in E. apply E.
        - assert (E : edge (adj g) (x i) (x (S i))) by (apply (proj2 (Hx i (S i) ltac:(lia) ltac:(lia))); left; reflexivity). apply (w_adj eqb g W) in E. apply E. }
      destruct (nth_error (nodes g) (x 0)) as [d|] eqn:E0; [|apply nth_error_None in E0; specialize (Lx 0 ltac:(lia)); lia].
      exists r, (fun i => nth (x i) (nodes g) d). split; [exact Lr|]. intros i j Hij Hj. destruct (Hx i j Hij Hj) as [N Eq].
      pose proof (nth_error_nth' (nodes g) d (Lx i ltac:(lia))) as Ei. pose proof (nth_error_nth' (nodes g) d (Lx j ltac:(lia))) as Ej. split.
      + intros X. apply N. rewrite X in Ei. apply (wf_inj eqb g _ _ _ W Ei Ej).
      + rewrite <- Eq, (is_edge_ok eqb g _ _ W). apply (joined_index eqb g _ _ _ _ W Ei Ej). }
  intros l1 x l2 y z E Hy Hz Nyz Exy Exz. destruct (forall2_split _ l l' l1 x l2 F E) as (k1 & i & k2 & Ek & _ & Hi & F2).
  destruct (forall2_in _ k2 l2 y F2 Hy) as (j & Hj & Ej). destruct (forall2_in _ k2 l2 z F2 Hz) as (k & Hk & Ekk).
  apply (is_edge_ok eqb g _ _ W) in Exy, Exz. apply (is_edge_ok eqb g _ _ W). apply (joined_index eqb g _ _ i j W Hi Ej) in Exy. apply (joined_index eqb g _ _ i k W Hi Ekk) in Exz.
  exists j, k. split; [exact Ej|]. split; [exact Ekk|]. apply (PO k1 i k2 j k Ek Hj Hk); [congruence|exact Exy|exact Exz].
Qed.
Print Assumptions C39_perfect_elimination_ordering.

(** ** The elimination game: the result is a supergraph for which eliminating the nodes of l in turn is perfect, and it
    has no edge beyond what that forces. *)
Theorem C39_elimination_game : forall A (eqb : A -> A -> bool), (forall a b, eqb a b = true <-> a = b) ->
  forall g l, graph_history eqb g -> undirected_graph eqb g -> (forall a, In a l -> In a (nodes g)) ->
  exists g', elimination_game eqb g l = Ok g' /\ nodes g' = nodes g /\ undirected_graph eqb g' /\
    (forall x y, is_edge eqb g x y = true -> is_edge eqb g' x y = true) /\
    (forall l1 x l2 y z, l = l1 ++ x :: l2 -> ~ In y (l1 ++ [x]) -> ~ In z (l1 ++ [x]) -> y <> z ->
       is_edge eqb g' x y = true -> is_edge eqb g' x z = true -> is_edge eqb g' y z = true) /\
    (Permutation l (nodes g) -> perfect_elimination eqb g' l) /\
    (* minimality: every undirected supergraph of g that is closed in the same sense contains g' *)
    (forall e : A -> A -> Prop, (forall x y, is_edge eqb g x y = true -> e x y) ->
       (forall l1 x l2 y z, l = l1 ++ x :: l2 -> ~ In y (l1 ++ [x]) -> ~ In z (l1 ++ [x]) -> y <> z -> e x y -> e x z -> e y z) ->
       forall x y, is_edge eqb g' x y = true -> e x y).
Proof.
  intros A eqb eqb_ok g l H U Hl. pose proof (history_wf eqb eqb_ok g H) as W. apply (und_iff eqb g W) in U.
  destruct (game_ok eqb eqb_ok l g (fun _ => true) [] W U Hl) as (g' & T & W' & U' & N' & F1 & F2 & F3). { intros i a _. split; [discriminate|intros []]. }
  exists g'. split; [exact T|]. split; [exact N'|]. split; [apply (und_iff eqb g' W'), U'|]. split.
  { intros x y E. apply (is_edge_ok eqb g' x y W'), F1, (is_edge_ok eqb g x y W), E. }
  assert (Fl : forall l1 x l2 y z, l = l1 ++ x :: l2 -> ~ In y (l1 ++ [x]) -> ~ In z (l1 ++ [x]) -> y <> z ->
       is_edge eqb g' x y = true -> is_edge eqb g' x z = true -> is_edge eqb g' y z = true).
  { intros l1 x l2 y z E Ny Nz Nyz Hy Hz. apply (is_edge_ok eqb g' _ _ W') in Hy, Hz. apply (is_edge_ok eqb g' _ _ W'). apply (F2 l1 x l2 y z E Ny Nz Nyz Hy Hz). }
  split; [exact Fl|]. split.
  - intros P. split; [rewrite N'; exact P|]. intros l1 x l2 y z E Hy Hz Nyz.
    assert (ND : NoDup l) by (apply (Permutation_NoDup (Permutation_sym P)), (wf_nodup eqb g W)).
    assert (X : forall y, In y l2 -> ~ In y (l1 ++ [x])).
    { intros w Hw Hin. rewrite E in ND. replace (l1 ++ x :: l2) with ((l1 ++ [x]) ++ l2) in ND by (rewrite <- app_assoc; reflexivity).
      clear - ND Hw Hin. induction (l1 ++ [x]) as [|c k IH]; [destruct Hin|]. cbn [app] in ND. inversion ND; subst. destruct Hin as [->|Hin]; [apply H1, in_app_iff; auto|auto]. }
    apply (Fl l1 x l2 y z E (X y Hy) (X z Hz) Nyz).
  - intros e E0 Ecl.
    (* the edges present when the k-th node has been eliminated are forced, by induction on k *)
    assert (K : forall k x y, (is_edge eqb g' x y = true) -> (forall l1 a l2, l = l1 ++ a :: l2 -> k <= length l1 -> In x (l1 ++ [a]) \/ In y (l1 ++ [a])) -> e x y).
    { induction k as [k IH] using lt_wf_ind. intros x y E Hk. apply (is_edge_ok eqb g' _ _ W') in E. destruct (F3 x y E) as [E1|(l1 & a & l2 & El & Nx & Ny & Nxy & Ea & Eb)].
      - apply E0, (is_edge_ok eqb g _ _ W), E1.
      - cbn [app] in Nx, Ny. destruct (Nat.lt_ge_cases (length l1) k) as [L|L].
        + assert (Last : forall l1' a' l2', l = l1' ++ a' :: l2' -> length l1 <= length l1' -> In a (l1' ++ [a'])).
          { intros l1' a' l2' El' Ll. assert (X : exists m, l1' ++ [a'] = (l1 ++ [a]) ++ m).
            { clear - El El' Ll. subst l. revert l1' El' Ll. induction l1 as [|c l1 IH]; intros l1' E L.
              - destruct l1' as [|c' l1']; cbn [app] in E; injection E as -> ->; [exists []; reflexivity|exists (l1' ++ [a']); reflexivity].
              - destruct l1' as [|c' l1']; cbn [length] in L; [lia|]. cbn [app] in E. injection E as -> E. destruct (IH l1' E ltac:(lia)) as [m Em]. exists m. cbn [app]. rewrite Em. reflexivity. }
            destruct X as [m ->]. rewrite !in_app_iff. cbn [In]. auto. }
          apply (Ecl l1 a l2 x y El Nx Ny Nxy); (apply (IH (length l1) L); [apply (is_edge_ok eqb g' _ _ W'); assumption|]; intros l1' a' l2' El' Ll; left; eapply Last; eassumption).
        + destruct (Hk l1 a l2 El L); contradiction. }
    intros x y E. apply (K (length l) x y E). intros l1 a l2 El L. rewrite El, app_length in L. cbn [length] in L. lia.
Qed.
Print Assumptions C39_elimination_game.

(** ** connected_branch.  On an undirected graph without isolated nodes the branches are exactly the connected
    components: they list every node once, none is empty, and two nodes are in one branch iff they are connected. *)
Theorem C39_connected_branch : forall A (eqb : A -> A -> bool), (forall a b, eqb a b = true <-> a = b) ->
  forall g, graph_history eqb g -> undirected_graph eqb g ->
  exists bs, terminates_with (fun fuel => connected_branch fuel g) bs /\
    NoDup (concat bs) /\ (forall x, In x (concat bs) -> In x (nodes g)) /\
    (forall b x y, In b bs -> In x b -> (In y b <-> connected eqb g x y)) /\
    (forall x, In x (nodes g) -> (exists y, is_edge eqb g x y = true) -> In x (concat bs)) /\
    ((forall x, In x (nodes g) -> exists y, is_edge eqb g x y = true) -> Permutation (concat bs) (nodes g) /\ Forall (fun b => b <> []) bs).
Proof.
  intros A eqb eqb_ok g H U. pose proof (history_wf eqb eqb_ok g H) as W. apply (und_iff eqb g W) in U.
  pose proof (proj1 (undirected_iff eqb eqb_ok g W) U) as Sy.
  destruct (branches_ok (adj g) (w_adj eqb g W) Sy) as (bs & l2 & T & (D & M & Rg & Cl & Cm & Full & _) & NE). rewrite (w_len eqb g W) in *.
  assert (NL : exists bs', fold_right (fun b (r : outcome (list (list A))) => b' <- node_list g b ;; r <- r ;; Ok (b' :: r)) (Ok []) bs = Ok bs' /\
    Forall2 (Forall2 (fun i a => nth_error (nodes g) i = Some a)) bs bs').
  { clear - Rg. induction bs as [|b bs IH]; cbn [fold_right concat]; [exists []; split; [reflexivity|constructor]|].
    destruct IH as (bs' & E & F). { intros y Hy. apply Rg. cbn [concat]. apply in_app_iff. right. exact Hy. }
    destruct (node_list_ok g b) as (b' & Eb & Fb). { intros i Hi. apply Rg. cbn [concat]. apply in_app_iff. left. exact Hi. }
    rewrite Eb. cbn [obind]. rewrite E. cbn [obind]. exists (b' :: bs'). split; [reflexivity|constructor; assumption]. }
  destruct NL as (bs' & E' & F). exists bs'.
  assert (FC : Forall2 (fun i a => nth_error (nodes g) i = Some a) (concat bs) (concat bs')).
  { clear - F. induction F as [|b b' bs bs' Hb F IH]; cbn [concat]; [constructor|]. apply Forall2_app; assumption. }
  assert (InC : forall i a, nth_error (nodes g) i = Some a -> (In a (concat bs') <-> In i (concat bs))).
  { intros i a Hi. split.
    - intros X. destruct (forall2_in _ _ _ _ FC X) as (j & Hj & Ej). rewrite (wf_inj eqb g i j a W Hi Ej). exact Hj.
    - intros X. clear - FC Hi X. induction FC as [|j b l l' Hj F IH]; [destruct X|]. destruct X as [->|X]; [left; congruence|right; auto]. }
  split; [|split; [|split; [|split; [|split]]]].
  - exists (S (length (nodes g))). intros fuel Hf. unfold connected_branch. rewrite T by lia. cbn [obind]. exact E'.
  - assert (Inj : forall i j a, nth_error (nodes g) i = Some a -> nth_error (nodes g) j = Some a -> i = j) by (intros i j a; apply (wf_inj eqb g i j a W)).
    clear - FC D Inj. induction FC as [|i a l l' Hi F IH]; [constructor|]. inversion D; subst. constructor; [|auto]. intros X. destruct (forall2_in _ _ _ _ F X) as (j & Hj & Ej). rewrite (Inj i j a Hi Ej) in H1. contradiction.
  - intros x Hx. destruct (forall2_in _ _ _ _ FC Hx) as (j & _ & Ej). eapply nth_error_In, Ej.
  - intros b' x y Hb Hx. destruct (forall2_in _ _ _ _ F Hb) as (b & Hbi & Fb). destruct (Cm b Hbi) as (r & Lr & Hr).
    assert (InB : forall i a, nth_error (nodes g) i = Some a -> (In a b' <-> In i b)).
    { intros i a Hi. split.
      - intros X. destruct (forall2_in _ _ _ _ Fb X) as (j & Hj & Ej). rewrite (wf_inj eqb g i j a W Hi Ej). exact Hj.
      - intros X. clear - Fb Hi X. induction Fb as [|j c l l' Hj F IH]; [destruct X|]. destruct X as [->|X]; [left; congruence|right; auto]. }
    destruct (forall2_in _ _ _ _ Fb Hx) as (i & Hi & Ei). apply Hr in Hi.
    assert (Up : forall a b, reach1 (adj g) a b -> forall x y, nth_error (nodes g) a = Some x -> nth_error (nodes g) b = Some y -> connected eqb g x y).
    { induction 1 as [a c E|a d c E R IH]; intros u v Hu Hv.
      - eapply rt1n_trans; [|apply rt1n_refl]. apply (is_edge_ok eqb g _ _ W). exists a, c. auto.
      - pose proof (proj2 (proj2 (w_adj eqb g W a) d E)) as Ld. rewrite (w_len eqb g W) in Ld. destruct (nth_error (nodes g) d) as [w|] eqn:Ed; [|apply nth_error_None in Ed; lia].
        eapply rt1n_trans; [|apply (IH w v eq_refl Hv)]. apply (is_edge_ok eqb g _ _ W). exists a, d. auto. }
    split.
    + intros Hy. destruct (forall2_in _ _ _ _ Fb Hy) as (j & Hj & Ej). apply Hr in Hj. apply (Up i j); [|exact Ei|exact Ej]. eapply reach1_trans; [apply (reach1_sym (adj g) Sy), Hi|exact Hj].
    + intros R. clear Hx. revert i Hi Ei. induction R as [x|x z y E R IH]; intros i Hi Ei; [apply (InB i x Ei), Hr, Hi|].
      apply (is_edge_ok eqb g _ _ W) in E as (i' & j & Hi' & Hj & E). rewrite (wf_inj eqb g i' i x W Hi' Ei) in E. apply (IH j); [|exact Hj]. eapply reach1_trans; [exact Hi|apply t1n_step, E].
  - intros x Hx (y & E). apply (is_edge_ok eqb g _ _ W) in E as (i & j & Hi & Hj & E). apply (InC i x Hi). apply Full; [apply nth_error_Some; congruence|exists j; exact E].
  - intros HF. assert (Fi : forall i, i < length (nodes g) -> exists j, edge (adj g) i j).
    { intros i Li. destruct (nth_error (nodes g) i) as [x|] eqn:Ei; [|apply nth_error_None in Ei; lia]. destruct (HF x (nth_error_In _ _ Ei)) as [y E].
      apply (is_edge_ok eqb g _ _ W) in E as (i' & j & Hi' & Hj & E). exists j. rewrite (wf_inj eqb g i i' x W Ei Hi'). exact E. }
    split.
    + apply (node_list_perm g (concat bs)); [apply (wf_nodup eqb g W)| |exact FC]. apply NoDup_Permutation; [exact D|apply seq_NoDup|]. intros i. rewrite in_seq. split; [intros Hi; specialize (Rg i Hi); lia|]. intros Hi. apply Full; [lia|apply Fi; lia].
    + specialize (NE Fi). clear - NE F. induction F as [|b b' bs bs' Hb F IH]; constructor; inversion NE; subst; [|auto]. intros ->. inversion Hb. congruence.
Qed.
Print Assumptions C39_connected_branch.
(** An isolated node is in no branch (its branch is empty). *)
Theorem C39_connected_branch_isolated_refuted :
  exists g : graph N, graph_history N.eqb g /\ undirected_graph N.eqb g /\ In 3%N (nodes g) /\
    connected_branch 10 g = Ok [[2%N; 1%N]; []].
Proof.
  exists (add_node N.eqb (add_edge N.eqb empty_graph 1%N 2%N false) 3%N). split; [repeat constructor|]. split.
  - intros a b. assert (H : forall d, graph_history N.eqb (add_edge N.eqb (@empty_graph N) 1%N 2%N d)) by (intros d; repeat constructor).
    destruct (C39_graph_api N N.eqb N.eqb_eq _ (H false)) as (_ & _ & X & _). rewrite !(proj2 (X 3%N)). destruct (C39_graph_api N N.eqb N.eqb_eq _ (gh_empty N.eqb)) as (_ & _ & _ & Y & _).
    rewrite !(proj2 (Y 1%N 2%N false)). intuition.
  - split; [right; right; left; reflexivity|reflexivity].
Qed.
Print Assumptions C39_connected_branch_isolated_refuted.

(** ** Concrete cases *)
(** the 4-cycle 1-2-3-4 is undirected and not chordal: the completion adds a chord *)
Local Open Scope N_scope.
Definition cycle4 : graph N :=
  add_edge N.eqb (add_edge N.eqb (add_edge N.eqb (add_edge N.eqb empty_graph 1 2 false) 2 3 false) 3 4 false) 4 1 false.
Example cycle4_history : graph_history N.eqb cycle4. Proof. repeat constructor. Qed.
Example cycle4_completion :
  match chordal_completion (fun _ _ => false) 20%nat cycle4 with
  | Ok (g', l) => l = [3; 4; 2; 1]%N /\ is_edge N.eqb cycle4 2 4 = false /\ is_edge N.eqb g' 2 4 = true /\ is_edge N.eqb g' 1 3 = false
  | _ => False
  end.
Proof. vm_compute. repeat split. Qed.
Example cycle4_peo : perfect_elimination_ordering (fun _ _ => false) cycle4 = Ok [4; 3; 2; 1]%N.
Proof. reflexivity. Qed.
Example cycle4_game :
  match elimination_game N.eqb cycle4 [1; 2; 3; 4]%N with
  | Ok g' => is_edge N.eqb g' 2 4 = true /\ is_edge N.eqb g' 1 3 = false
  | _ => False
  end.
Proof. vm_compute. split; reflexivity. Qed.
(** a triangle is chordal *)
Definition triangle : graph N := add_edge N.eqb (add_edge N.eqb (add_edge N.eqb empty_graph 1 2 false) 2 3 false) 3 1 false.

Example triangle_history : graph_history N.eqb triangle. Proof. repeat constructor. Qed.
Example triangle_chordal : chordal N.eqb triangle /\ forall a, is_edge N.eqb triangle a a = false.
Proof.
  destruct (C39_graph_api N N.eqb N.eqb_eq triangle triangle_history) as (_ & Nd & _). split.
  - intros (r & x & Lr & H). assert (I : incl (map x [0; 1; 2; 3]%nat) (nodes triangle)).
    { intros v Hv. apply in_map_iff in Hv as (i & <- & Hi). destruct (Nat.eq_dec i r) as [->|Ni].
      - apply (Nd (x 0%nat) (x r)). apply (proj2 (H 0%nat r ltac:(lia) ltac:(lia))). right. auto.
      - apply (Nd (x i) (x (S i))). assert (L : (i <= 3)%nat) by (cbn in Hi; intuition lia). apply (proj2 (H i (S i) ltac:(lia) ltac:(lia))). left. reflexivity. }
    assert (D : NoDup (map x [0; 1; 2; 3]%nat)).
    { assert (X : forall i j, (i < j)%nat -> (j <= 3)%nat -> x i <> x j) by (intros i j A1 A2; apply (H i j A1 ltac:(lia))).
      cbn [map]. repeat constructor; cbn [In]; intros Hin; repeat destruct Hin as [Hin|Hin]; try exact Hin; symmetry in Hin; revert Hin; apply X; lia. }
    apply NoDup_incl_length in I; [|exact D]. cbn in I. lia.
  - intros a. destruct (is_edge N.eqb triangle a a) eqn:E; [|reflexivity]. pose proof (proj1 (Nd a a E)) as I. cbn in I. destruct I as [<-|[<-|[<-|[]]]]; discriminate.
Qed.
