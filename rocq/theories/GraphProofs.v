(** * Graph objects: add_node, add_edge, the associated graph, the elimination game (Graph.v). *)
From Coq Require Import Sorted Permutation.
From Verif Require Import Prelude Coef Spec Mono PolyOps Graph GraphMath GraphMcs GraphMcsM.

Section Nodes.
Context {A : Type} (eqb : A -> A -> bool).
Hypothesis eqb_ok : forall a b, eqb a b = true <-> a = b.
Record wf_graph (g : graph A) : Prop := {
  w_find : forall a i, mfind eqb a (mnode g) = Some i <-> nth_error (nodes g) i = Some a;
  w_len : length (adj g) = length (nodes g);
  w_adj : wf_adj (adj g) }.
(** two nodes are joined by an edge *)
Definition joined (g : graph A) (a b : A) : Prop :=
  exists i j, nth_error (nodes g) i = Some a /\ nth_error (nodes g) j = Some b /\ edge (adj g) i j.
Lemma wf_empty : wf_graph empty_graph.
Proof.
  constructor; [|reflexivity|].
  - intros a i. cbn. destruct i; cbn; split; discriminate.
  - intros a. cbn. destruct a; (split; [constructor|intros b []]).
Qed.
Lemma wf_inj g i j a : wf_graph g -> nth_error (nodes g) i = Some a -> nth_error (nodes g) j = Some a -> i = j.
Proof. intros W Hi Hj. apply (w_find g W) in Hi, Hj. congruence. Qed.
Lemma wf_nodup g : wf_graph g -> NoDup (nodes g).
Proof.
  intros W. apply NoDup_nth_error. intros i j Hi E. destruct (nth_error (nodes g) i) as [a|] eqn:Ei; [|apply nth_error_None in Ei; lia].
  apply (wf_inj g i j a W Ei). congruence.
Qed.
Lemma joined_index g a b i j : wf_graph g -> nth_error (nodes g) i = Some a -> nth_error (nodes g) j = Some b -> (joined g a b <-> edge (adj g) i j).
Proof.
  intros W Hi Hj. split; [|intros H; exists i, j; auto]. intros (i' & j' & Hi' & Hj' & H).
  rewrite (wf_inj g i i' a W Hi Hi'), (wf_inj g j j' b W Hj Hj'). exact H.
Qed.
Lemma is_edge_ok g a b : wf_graph g -> (is_edge eqb g a b = true <-> joined g a b).
Proof.
  intros W. unfold is_edge. destruct (mfind eqb a (mnode g)) as [i|] eqn:Ei.
  - destruct (mfind eqb b (mnode g)) as [j|] eqn:Ej.
    + rewrite set_mem_spec. fold (edge (adj g) i j). apply (w_find g W) in Ei, Ej. symmetry. apply joined_index; assumption.
    + split; [discriminate|]. intros (i' & j' & _ & Hj & _). apply (w_find g W) in Hj. congruence.
  - split; [discriminate|]. intros (i' & j' & Hi & _). apply (w_find g W) in Hi. congruence.
Qed.
Lemma edge_snoc g a b : edge (g ++ [[]]) a b <-> edge g a b.
Proof.
  unfold edge. destruct (Nat.lt_ge_cases a (length g)) as [L|L]; [rewrite app_nth1 by exact L; reflexivity|].
  rewrite app_nth2 by exact L. rewrite (nth_overflow g) by exact L. destruct (a - length g) as [|[|k]]; reflexivity.
Qed.
Lemma nth_snoc (g : list (list nat)) a : nth a (g ++ [[]]) [] = nth a g [].
Proof.
  destruct (Nat.lt_ge_cases a (length g)) as [L|L]; [rewrite app_nth1 by exact L; reflexivity|].
  rewrite app_nth2 by exact L. rewrite (nth_overflow g) by exact L. destruct (a - length g) as [|[|k]]; reflexivity.
Qed.
Lemma wf_snoc g : wf_adj g -> wf_adj (g ++ [[]]).
Proof.
  intros W a. rewrite nth_snoc. split; [apply W|]. intros b H. apply (proj1 (edge_snoc g a b)) in H. apply (proj2 (W a)) in H. rewrite app_length. lia.
Qed.
Lemma nth_error_snoc {B} (l : list B) x i y : nth_error (l ++ [x]) i = Some y <-> nth_error l i = Some y \/ (i = length l /\ y = x).
Proof.
  destruct (Nat.lt_trichotomy i (length l)) as [L|[->|L]].
  - rewrite nth_error_app1 by exact L. split; [auto|]. intros [H|[H _]]; [exact H|lia].
  - rewrite nth_error_app2, Nat.sub_diag by lia. cbn. split; [intros [= <-]; auto|]. intros [H|[_ ->]]; [|reflexivity].
    assert (X : nth_error l (length l) = None) by (apply nth_error_None; lia). congruence.
  - assert (X : nth_error l i = None) by (apply nth_error_None; lia). assert (Y : nth_error (l ++ [x]) i = None) by (apply nth_error_None; rewrite app_length; cbn; lia).
    rewrite X, Y. split; [discriminate|]. intros [H|[H _]]; [discriminate|lia].
Qed.
Lemma add_node_ok g c : wf_graph g -> let g' := add_node eqb g c in
  wf_graph g' /\ (forall x, In x (nodes g') <-> In x (nodes g) \/ x = c) /\ (forall x y, joined g' x y <-> joined g x y) /\
  (forall a b, edge (adj g') a b <-> edge (adj g) a b) /\ (forall i x, nth_error (nodes g) i = Some x -> nth_error (nodes g') i = Some x).
Proof.
  intros W. unfold add_node. destruct (mfind eqb c (mnode g)) as [i|] eqn:Ec; cbv zeta.
  - split; [exact W|]. split; [|split; [reflexivity|split; [reflexivity|auto]]]. intros x. split; [auto|]. intros [H| ->]; [exact H|].
    apply (w_find g W) in Ec. apply nth_error_In in Ec. exact Ec.
  - assert (Nc : forall i, nth_error (nodes g) i <> Some c) by (intros i H; apply (w_find g W) in H; congruence).
    assert (W' : wf_graph (Graph (nodes g ++ [c]) ((c, length (nodes g)) :: mnode g) (adj g ++ [[]]))).
    { constructor; cbn [nodes mnode adj].
      - intros a i. rewrite nth_error_snoc. cbn [mfind]. destruct (eqb c a) eqn:Eca.
        + apply eqb_ok in Eca. subst a. split; [intros [= <-]; auto|]. intros [H|[-> _]]; [destruct (Nc i H)|reflexivity].
        + rewrite (w_find g W). split; [auto|]. intros [H|[_ ->]]; [exact H|]. rewrite (proj2 (eqb_ok c c) eq_refl) in Eca. discriminate.
      - rewrite !app_length, (w_len g W). reflexivity.
      - apply wf_snoc, (w_adj g W). }
    split; [exact W'|]. split; [|split; [|split]].
    + intros x. cbn [nodes]. rewrite in_app_iff. cbn [In]. intuition congruence.
    + intros x y. unfold joined. cbn [nodes adj]. split.
      * intros (i & j & Hi & Hj & H). apply (proj1 (edge_snoc _ _ _)) in H. pose proof (proj2 (w_adj g W i) j H) as [Li Lj]. rewrite (w_len g W) in Li, Lj.
        apply nth_error_snoc in Hi as [Hi|[-> _]]; [|lia]. apply nth_error_snoc in Hj as [Hj|[-> _]]; [|lia]. exists i, j. auto.
      * intros (i & j & Hi & Hj & H). exists i, j. rewrite !nth_error_snoc. rewrite edge_snoc. auto.
    + intros a b. apply edge_snoc.
    + intros i x Hi. cbn [nodes]. apply nth_error_snoc. auto.
Qed.
Lemma find_or_add_ok g a : wf_graph g -> exists g' i, find_or_add eqb g a = (g', i) /\ wf_graph g' /\ nth_error (nodes g') i = Some a /\
  (forall x, In x (nodes g') <-> In x (nodes g) \/ x = a) /\ (forall x y, joined g' x y <-> joined g x y) /\ (forall j x, nth_error (nodes g) j = Some x -> nth_error (nodes g') j = Some x) /\
  (forall a b, edge (adj g') a b <-> edge (adj g) a b).
Proof.
  intros W. unfold find_or_add. pose proof (add_node_ok g a W) as (W' & N & J & E & M). cbv zeta in *. destruct (mfind eqb a (mnode g)) as [i|] eqn:Ei.
  - exists g, i. split; [reflexivity|]. split; [exact W|]. split; [apply (w_find g W), Ei|]. split; [|split; [reflexivity|split; [auto|reflexivity]]].
    intros x. split; [auto|]. intros [H| ->]; [exact H|]. apply (w_find g W) in Ei. apply nth_error_In in Ei. exact Ei.
  - exists (add_node eqb g a), (gsize (add_node eqb g a) - 1). split; [reflexivity|]. split; [exact W'|]. split; [|auto 6].
    unfold gsize, add_node. rewrite Ei. cbn [nodes]. rewrite app_length. cbn [length]. apply nth_error_snoc. right. split; [lia|reflexivity].
Qed.
Lemma put_edge_ok g na nb a b dir : wf_graph g -> nth_error (nodes g) na = Some a -> nth_error (nodes g) nb = Some b -> let g' := put_edge g na nb dir in
  wf_graph g' /\ nodes g' = nodes g /\ mnode g' = mnode g /\
  (forall i j, edge (adj g') i j <-> edge (adj g) i j \/ (i = na /\ j = nb) \/ (dir = false /\ i = nb /\ j = na)) /\
  (forall x y, joined g' x y <-> joined g x y \/ (x = a /\ y = b) \/ (dir = false /\ x = b /\ y = a)).
Proof.
  intros W Ha Hb g'. assert (La : na < length (adj g)) by (rewrite (w_len g W); apply nth_error_Some; congruence).
  assert (Lb : nb < length (adj g)) by (rewrite (w_len g W); apply nth_error_Some; congruence).
  assert (EE : forall i j, edge (adj g') i j <-> edge (adj g) i j \/ (i = na /\ j = nb) \/ (dir = false /\ i = nb /\ j = na)).
  { intros i j. unfold g', put_edge. cbn [adj]. destruct dir.
    - rewrite edge_insert by exact La. intuition congruence.
    - rewrite edge_insert by (rewrite adj_length; exact Lb). rewrite edge_insert by exact La. intuition. }
  assert (W' : wf_graph g').
  { destruct W as [W1 W2 W3]. constructor; unfold g', put_edge; cbn [nodes mnode adj].
    - exact W1.
    - destruct dir; rewrite ?adj_length; exact W2.
    - destruct dir; [apply wf_insert; assumption|]. apply wf_insert; [apply wf_insert; assumption|rewrite adj_length; assumption..]. }
  split; [exact W'|]. split; [reflexivity|]. split; [reflexivity|]. split; [exact EE|]. intros x y. split.
  - intros (i & j & Hi & Hj & H). unfold g', put_edge in Hi, Hj. cbn [nodes] in Hi, Hj. apply EE in H as [H|[[-> ->]|(D & -> & ->)]].
    + left. exists i, j. auto.
    + right. left. split; congruence.
    + right. right. split; [exact D|split; congruence].
  - intros [(i & j & Hi & Hj & H)|[[-> ->]|(D & -> & ->)]].
    + exists i, j. rewrite EE. auto.
    + exists na, nb. rewrite EE. auto 6.
    + exists nb, na. rewrite EE. auto 8.
Qed.
Lemma add_edge_ok g a b dir : wf_graph g -> let g' := add_edge eqb g a b dir in
  wf_graph g' /\ (forall x, In x (nodes g') <-> In x (nodes g) \/ x = a \/ x = b) /\
  (forall x y, joined g' x y <-> joined g x y \/ (x = a /\ y = b) \/ (dir = false /\ x = b /\ y = a)).
Proof.
  intros W. unfold add_edge. destruct (find_or_add_ok g a W) as (g1 & na & E1 & W1 & N1 & I1 & J1 & M1 & _). rewrite E1.
  destruct (find_or_add_ok g1 b W1) as (g2 & nb & E2 & W2 & N2 & I2 & J2 & M2 & _). rewrite E2. cbv zeta.
  destruct (put_edge_ok g2 na nb a b dir W2 (M2 _ _ N1) N2) as (W3 & E3 & _ & _ & J3). split; [exact W3|]. split.
  - intros x. rewrite E3, I2, I1. tauto.
  - intros x y. rewrite J3, J2, J1. reflexivity.
Qed.
(** undirected graphs *)
Definition undirected (g : graph A) : Prop := forall x y, joined g x y -> joined g y x.
Lemma undirected_iff g : wf_graph g -> (undirected g <-> symmetric (adj g)).
Proof.
  intros W. split.
  - intros H i j Hij. pose proof (proj2 (w_adj g W i) j Hij) as [Li Lj]. rewrite (w_len g W) in Li, Lj.
    destruct (nth_error (nodes g) i) as [a|] eqn:Ea; [|apply nth_error_None in Ea; lia]. destruct (nth_error (nodes g) j) as [b|] eqn:Eb; [|apply nth_error_None in Eb; lia].
    apply (joined_index g b a j i W Eb Ea), H. exists i, j. auto.
  - intros H x y (i & j & Hi & Hj & E). exists j, i. auto.
Qed.

(** ** the elimination game *)
Lemma in_seq_nth g i : wf_graph g -> i < length (nodes g) -> exists a, nth_error (nodes g) i = Some a.
Proof. intros _ L. destruct (nth_error (nodes g) i) as [a|] eqn:E; [eauto|apply nth_error_None in E; lia]. Qed.
Lemma game_row (h : nat -> bool) j1 l : forall g, wf_graph g -> j1 < length (nodes g) -> (forall j, In j l -> j < length (nodes g)) ->
  exists g', fold_left (fun (g : outcome (graph A)) j2 => g <- g ;; if h j2 then add_edge_index g j1 j2 false else Ok g) l (Ok g) = Ok g' /\ wf_graph g' /\ nodes g' = nodes g /\ mnode g' = mnode g /\
    forall i j, edge (adj g') i j <-> edge (adj g) i j \/ (i = j1 /\ In j l /\ h j = true) \/ (j = j1 /\ In i l /\ h i = true).
Proof.
  induction l as [|j2 l IH]; intros g W L1 Ll; cbn [fold_left obind].
  - exists g. split; [reflexivity|]. split; [exact W|]. split; [reflexivity|]. split; [reflexivity|]. intros i j. cbn [In]. tauto.
  - assert (L2 : j2 < length (nodes g)) by (apply Ll; left; reflexivity). destruct (h j2) eqn:Eh.
    + unfold add_edge_index, gsize. destruct (Nat.ltb_spec j1 (length (nodes g))) as [_|?]; [|lia]. destruct (Nat.ltb_spec j2 (length (nodes g))) as [_|?]; [|lia]. cbn [andb].
      destruct (in_seq_nth g j1 W L1) as [a Ha]. destruct (in_seq_nth g j2 W L2) as [b Hb].
      destruct (put_edge_ok g j1 j2 a b false W Ha Hb) as (W1 & N1 & M1 & E1 & _).
      destruct (IH (put_edge g j1 j2 false) W1) as (g' & T & W' & N' & M' & E').
      { rewrite N1. exact L1. } { intros j Hj. rewrite N1. apply Ll. right. exact Hj. }
      exists g'. split; [exact T|]. split; [exact W'|]. split; [congruence|]. split; [congruence|]. intros i j. rewrite E', E1. cbn [In]. split.
      * intros [[H|[[-> ->]|(_ & -> & ->)]]|[H|H]]; [auto|right; left; auto|right; right; auto|right; left; tauto|right; right; tauto].
      * intros [H|[(-> & [<-|H] & Hh)|(-> & [<-|H] & Hh)]]; auto 8.
    + destruct (IH g W L1 (fun j Hj => Ll j (or_intror Hj))) as (g' & T & W' & N' & M' & E'). exists g'. split; [exact T|]. split; [exact W'|]. split; [exact N'|]. split; [exact M'|].
      intros i j. rewrite E'. cbn [In]. split; [tauto|]. intros [H|[(-> & [<-|H] & Hh)|(-> & [<-|H] & Hh)]]; auto; congruence.
Qed.
Lemma game_pairs_ok h l : forall g, wf_graph g -> NoDup l -> (forall j, In j l -> j < length (nodes g)) ->
  exists g', game_pairs g l h = Ok g' /\ wf_graph g' /\ nodes g' = nodes g /\ mnode g' = mnode g /\
    forall i j, edge (adj g') i j <-> edge (adj g) i j \/ (i <> j /\ In i l /\ In j l /\ h i = true /\ h j = true).
Proof.
  induction l as [|j1 l IH]; intros g W ND Ll; cbn [game_pairs].
  - exists g. split; [reflexivity|]. split; [exact W|]. split; [reflexivity|]. split; [reflexivity|]. intros i j. cbn [In]. tauto.
  - assert (L1 : j1 < length (nodes g)) by (apply Ll; left; reflexivity). inversion ND as [|? ? Nj ND']; subst. destruct (h j1) eqn:Eh.
    + destruct (game_row h j1 l g W L1 (fun j Hj => Ll j (or_intror Hj))) as (g1 & T1 & W1 & N1 & M1 & E1). rewrite T1. cbn [obind].
      destruct (IH g1 W1 ND') as (g' & T & W' & N' & M' & E'). { intros j Hj. rewrite N1. apply Ll. right. exact Hj. }
      exists g'. split; [exact T|]. split; [exact W'|]. split; [congruence|]. split; [congruence|]. intros i j. rewrite E', E1. cbn [In]. split.
      * intros [[H|[(-> & H & Hh)|(-> & H & Hh)]]|H]; [auto|right; split; [intros ->; contradiction|auto]|right; split; [intros ->; contradiction|auto]|right; tauto].
      * intros [H|(Nij & [<-|Hi] & [<-|Hj] & Hh1 & Hh2)]; auto 8. contradiction.
    + cbn [obind]. destruct (IH g W ND' (fun j Hj => Ll j (or_intror Hj))) as (g' & T & W' & N' & M' & E'). exists g'. split; [exact T|]. split; [exact W'|]. split; [exact N'|]. split; [exact M'|].
      intros i j. rewrite E'. cbn [In]. split; [tauto|]. intros [H|(Nij & [<-|Hi] & [<-|Hj] & Hh1 & Hh2)]; auto 8; congruence.
Qed.
(** the nodes of [l] are eliminated in turn *)
Definition fill_ok (g g' : graph A) (done l : list A) : Prop :=
  (forall x y, joined g x y -> joined g' x y) /\
  (forall l1 x l2 y z, l = l1 ++ x :: l2 -> ~ In y (done ++ l1 ++ [x]) -> ~ In z (done ++ l1 ++ [x]) -> y <> z -> joined g' x y -> joined g' x z -> joined g' y z) /\
  (forall y z, joined g' y z -> joined g y z \/ exists l1 x l2, l = l1 ++ x :: l2 /\ ~ In y (done ++ l1 ++ [x]) /\ ~ In z (done ++ l1 ++ [x]) /\ y <> z /\ joined g' x y /\ joined g' x z).
Lemma game_ok l : forall g h done, wf_graph g -> undirected g -> (forall a, In a l -> In a (nodes g)) ->
  (forall i a, nth_error (nodes g) i = Some a -> (h i = false <-> In a done)) ->
  exists g', game_loop eqb g l h = Ok g' /\ wf_graph g' /\ undirected g' /\ nodes g' = nodes g /\ fill_ok g g' done l.
Proof.
  induction l as [|a l IH]; intros g h done W U Il Hh; cbn [game_loop].
  - exists g. split; [reflexivity|]. split; [exact W|]. split; [exact U|]. split; [reflexivity|]. split; [auto|]. split; [|auto]. intros l1 x l2 y z E. destruct l1; discriminate.
  - destruct (In_nth_error (nodes g) a (Il a (or_introl eq_refl))) as [i1 Ei]. unfold gindex. rewrite (proj2 (w_find g W a i1) Ei). cbn [obind].
    set (h' := fupd h i1 false).
    assert (Hh' : forall i b, nth_error (nodes g) i = Some b -> (h' i = false <-> In b (done ++ [a]))).
    { intros i b Hb. unfold h', fupd. rewrite in_app_iff. cbn [In]. destruct (Nat.eqb_spec i i1) as [->|Ni].
      - rewrite Ei in Hb. injection Hb as <-. intuition.
      - rewrite (Hh i b Hb). split; [auto|]. intros [H|[<-|[]]]; [exact H|]. destruct Ni. apply (wf_inj g i i1 a W Hb Ei). }
    destruct (game_pairs_ok h' (nth i1 (adj g) []) g W) as (g1 & T1 & W1 & N1 & M1 & E1).
    { apply sorted_nodup, (w_adj g W). } { intros j Hj. rewrite <- (w_len g W). apply (w_adj g W i1), Hj. }
    fold (edge (adj g) i1) in E1. rewrite T1. cbn [obind].
    assert (U1 : undirected g1).
    { apply (undirected_iff g1 W1). apply (undirected_iff g W) in U. intros i j Hij. apply E1 in Hij. apply E1. destruct Hij as [H|(A1 & A2 & A3 & A4 & A5)]; [left; apply U, H|right; auto 6]. }
    destruct (IH g1 h' (done ++ [a]) W1 U1) as (g' & T' & W' & U' & N' & F1 & F2 & F3).
    { intros b Hb. rewrite N1. apply Il. right. exact Hb. } { intros i b Hb. rewrite N1 in Hb. apply Hh', Hb. }
    exists g'. split; [exact T'|]. split; [exact W'|]. split; [exact U'|]. split; [congruence|].
    assert (J1 : forall x y, joined g x y -> joined g1 x y).
    { intros x y (i & j & Hi & Hj & H). exists i, j. rewrite N1, E1. auto. }
    (* the neighbours of a do not change any more *)
    assert (Fix : forall y, joined g' a y -> joined g1 a y).
    { intros y H. destruct (F3 a y H) as [H1|(l1 & x & l2 & _ & Na & _)]; [exact H1|]. destruct Na. rewrite !in_app_iff. cbn [In]. auto. }
    assert (Fix0 : forall y, joined g1 a y -> joined g a y).
    { intros y (i & j & Hi & Hj & H). rewrite N1 in Hi, Hj. exists i, j. split; [exact Hi|]. split; [exact Hj|]. apply E1 in H as [H|(_ & _ & _ & Hf & _)]; [exact H|].
      rewrite (wf_inj g i i1 a W Hi Ei) in Hf. unfold h' in Hf. rewrite fupd_same in Hf. discriminate. }
    split; [|split].
    + intros x y H. apply F1, J1, H.
    + intros l1 x l2 y z E Ny Nz Nyz Hy Hz. destruct l1 as [|b l1]; cbn [app] in E; injection E as -> ->.
      * apply Fix, Fix0 in Hy as (i & j & Hi & Hj & H). apply Fix, Fix0 in Hz as (i' & k & Hi' & Hk & H').
        rewrite (wf_inj g i i1 x W Hi Ei) in *. rewrite (wf_inj g i' i1 x W Hi' Ei) in *. apply F1. exists j, k. rewrite N1. split; [exact Hj|]. split; [exact Hk|]. apply E1. right.
        split; [intros ->; congruence|]. split; [exact H|]. split; [exact H'|]. cbn [app] in Ny, Nz.
        split; [destruct (h' j) eqn:X; [reflexivity|]; apply (Hh' j y Hj) in X; contradiction|destruct (h' k) eqn:X; [reflexivity|]; apply (Hh' k z Hk) in X; contradiction].
      * apply (F2 l1 x l2 y z eq_refl); [..|exact Nyz|exact Hy|exact Hz]; rewrite <- app_assoc; assumption.
    + intros y z H. destruct (F3 y z H) as [H1|(l1 & x & l2 & E & Ny & Nz & R)].
      * destruct H1 as (j & k & Hj & Hk & H1). rewrite N1 in Hj, Hk. apply E1 in H1 as [H1|(Njk & A1 & A2 & A3 & A4)]; [left; exists j, k; auto|]. right.
        exists [], a, l. split; [reflexivity|]. cbn [app].
        assert (Ny : ~ In y (done ++ [a])) by (intros X; apply (Hh' j y Hj) in X; congruence). assert (Nz : ~ In z (done ++ [a])) by (intros X; apply (Hh' k z Hk) in X; congruence).
        split; [exact Ny|]. split; [exact Nz|]. split; [intros ->; apply Njk, (wf_inj g j k z W Hj Hk)|]. split; apply F1, J1; [exists i1, j|exists i1, k]; auto.
      * right. exists (a :: l1), x, l2. rewrite E. split; [reflexivity|]. cbn [app]. rewrite <- app_assoc in Ny, Nz. cbn [app] in Ny, Nz. auto.
Qed.
Lemma node_list_ok (g : graph A) l : (forall i, In i l -> i < length (nodes g)) -> exists l', node_list g l = Ok l' /\ Forall2 (fun i a => nth_error (nodes g) i = Some a) l l'.
Proof.
  induction l as [|i l IH]; intros H; [exists []; split; [reflexivity|constructor]|]. destruct (IH (fun j Hj => H j (or_intror Hj))) as (l' & E & F).
  change (node_list g (i :: l)) with (a <- aget (nodes g) i ;; r <- node_list g l ;; Ok (a :: r)). unfold aget. destruct (nth_error (nodes g) i) as [a|] eqn:Ei; [|apply nth_error_None in Ei; specialize (H i (or_introl eq_refl)); lia].
  cbn [obind]. rewrite E. cbn [obind]. exists (a :: l'). split; [reflexivity|constructor; assumption].
Qed.
Lemma forall2_length {X Y} (R : X -> Y -> Prop) l l' : Forall2 R l l' -> length l = length l'.
Proof. induction 1; cbn; congruence. Qed.
Lemma node_list_perm (g : graph A) l l' : NoDup (nodes g) -> Permutation l (seq 0 (length (nodes g))) -> Forall2 (fun i a => nth_error (nodes g) i = Some a) l l' -> Permutation l' (nodes g).
Proof.
  intros ND P F. assert (L : length l' = length (nodes g)) by (rewrite <- (forall2_length _ _ _ F), (Permutation_length P), seq_length; reflexivity).
  apply NoDup_Permutation_bis.
  - assert (NL : NoDup l) by (apply (Permutation_NoDup (Permutation_sym P)), seq_NoDup). clear P L. induction F as [|i a l l' Hi F IH]; constructor; inversion NL; subst; auto.
    intros X. apply (In_nth_error) in X as [k Hk]. assert (Y : exists i', In i' l /\ nth_error (nodes g) i' = Some a).
    { clear - F Hk. revert k Hk. induction F as [|i b l l' Hi F IH]; intros [|k] Hk; try discriminate; cbn in Hk.
      - injection Hk as ->. exists i. split; [left; reflexivity|exact Hi].
      - destruct (IH k Hk) as (i' & A1 & A2). exists i'. split; [right; exact A1|exact A2]. }
    destruct Y as (i' & I1 & I2). assert (i = i'); [|subst; contradiction]. apply (proj1 (NoDup_nth_error (nodes g)) ND); [apply nth_error_Some; congruence|congruence].
  - lia.
  - intros a Ha. clear P L. induction F as [|i b l l' Hi F IH]; [destruct Ha|]. destruct Ha as [<-|Ha]; [apply (nth_error_In _ _ Hi)|auto].
Qed.
Lemma forall2_split {X Y} (R : X -> Y -> Prop) l l' l1 a l2 : Forall2 R l l' -> l' = l1 ++ a :: l2 -> exists k1 i k2, l = k1 ++ i :: k2 /\ Forall2 R k1 l1 /\ R i a /\ Forall2 R k2 l2.
Proof.
  intros F. revert l1. induction F as [|i b l l' Hi F IH]; intros [|c l1] E; try discriminate; cbn in E; injection E as -> ->.
  - exists [], i, l. split; [reflexivity|]. split; [constructor|]. split; [exact Hi|exact F].
  - destruct (IH l1 eq_refl) as (k1 & i' & k2 & E & A1 & A2 & A3). exists (i :: k1), i', k2. rewrite E. split; [reflexivity|]. split; [constructor; assumption|]. auto.
Qed.
Lemma forall2_in {X Y} (R : X -> Y -> Prop) l l' a : Forall2 R l l' -> In a l' -> exists i, In i l /\ R i a.
Proof. intros F. induction F as [|i b l l' Hi F IH]; intros []; [subst; exists i; split; [left; reflexivity|exact Hi]|]. destruct (IH H) as (j & A1 & A2). exists j. split; [right; exact A1|exact A2]. Qed.
End Nodes.

(** ** the associated graph *)
Section Assoc.
Notation joinedv := (@joined var).
Notation wf := (wf_graph N.eqb).
Lemma fold_edges v seen : forall g, wf g -> In v (nodes g) -> let g' := fold_left (fun g u => add_edge N.eqb g v u false) seen g in
  wf g' /\ (forall x, In x (nodes g') <-> In x (nodes g) \/ In x seen) /\
  (forall x y, joinedv g' x y <-> joinedv g x y \/ (x = v /\ In y seen) \/ (y = v /\ In x seen)).
Proof.
  induction seen as [|u seen IH]; intros g W Hv; cbn [fold_left]; cbv zeta.
  - split; [exact W|]. split; [intros x; cbn; tauto|intros x y; cbn; tauto].
  - destruct (add_edge_ok N.eqb N.eqb_eq g v u false W) as (W1 & N1 & J1). cbv zeta in *.
    destruct (IH _ W1 (proj2 (N1 v) (or_introl Hv))) as (W2 & N2 & J2). split; [exact W2|]. split.
    + intros x. rewrite N2, N1. cbn [In]. split; [intros [[H|[->|H]]|H]; auto|intros [H|[H|H]]; auto].
    + intros x y. rewrite J2, J1. cbn [In]. split.
      * intros [[H|[[-> ->]|(_ & -> & ->)]]|[[-> H]|[-> H]]]; auto 6.
      * intros [H|[[-> [<-|H]]|[-> [<-|H]]]]; auto 8.
Qed.
Lemma assoc_vars_ok vs : forall g seen, wf g -> (forall x, In x seen -> In x (nodes g)) -> let g' := assoc_vars g seen vs in
  wf g' /\ (forall x, In x (nodes g') <-> In x (nodes g) \/ In x vs) /\
  (forall x y, joinedv g' x y <-> joinedv g x y \/ exists l1 v l2, vs = l1 ++ v :: l2 /\ ((x = v /\ In y (seen ++ l1)) \/ (y = v /\ In x (seen ++ l1)))).
Proof.
  induction vs as [|v vs IH]; intros g seen W Hs; cbn [assoc_vars]; cbv zeta.
  - split; [exact W|]. split; [intros x; cbn; tauto|]. intros x y. split; [auto|]. intros [H|(l1 & v & l2 & E & _)]; [exact H|destruct l1; discriminate].
  - destruct (add_node_ok N.eqb N.eqb_eq g v W) as (W1 & N1 & J1 & _). cbv zeta in *.
    destruct (fold_edges v seen _ W1 (proj2 (N1 v) (or_intror eq_refl))) as (W2 & N2 & J2). cbv zeta in *.
    set (g2 := fold_left (fun g u => add_edge N.eqb g v u false) seen (add_node N.eqb g v)) in *.
    destruct (IH g2 (seen ++ [v]) W2) as (W3 & N3 & J3).
    { intros x Hx. apply N2. apply in_app_iff in Hx as [Hx|[<-|[]]]; [right; exact Hx|left; apply N1; right; reflexivity]. }
    split; [exact W3|]. split.
    + intros x. rewrite N3, N2, N1. cbn [In]. split; [intros [[[H|H]|H]|H]; auto|]. intros [H|[H|H]]; auto.
    + intros x y. rewrite J3, J2, J1. split.
      * intros [[H|H]|(l1 & u & l2 & E & H)]; [auto| |].
        { right. exists [], v, vs. rewrite app_nil_r. split; [reflexivity|tauto]. }
        { right. exists (v :: l1), u, l2. rewrite E. split; [reflexivity|]. rewrite <- app_assoc in H. exact H. }
      * intros [H|(l1 & u & l2 & E & H)]; [auto|]. destruct l1 as [|b l1]; cbn [app] in E; injection E as -> ->.
        { left. right. rewrite app_nil_r in H. tauto. }
        { right. exists l1, u, l2. split; [reflexivity|]. rewrite <- app_assoc. exact H. }
Qed.
Context {C : Type} (vo : vorder).
Lemma associated_ok (ps : list (poly C)) : (forall p, In p ps -> NoDup (map fst (get_variables vo p))) -> let g := associatedgraph vo ps in
  wf g /\ (forall x, In x (nodes g) <-> exists p, In p ps /\ In x (map fst (get_variables vo p))) /\
  (forall x y, joinedv g x y <-> x <> y /\ exists p, In p ps /\ In x (map fst (get_variables vo p)) /\ In y (map fst (get_variables vo p))).
Proof.
  intros ND g. unfold g, associatedgraph. clear g.
  assert (Gen : forall (qs : list (poly C)) g, wf g -> (forall p, In p qs -> NoDup (map fst (get_variables vo p))) -> let g' := fold_left (fun g p => assoc_vars g [] (map fst (get_variables vo p))) qs g in
    wf g' /\ (forall x, In x (nodes g') <-> In x (nodes g) \/ exists p, In p qs /\ In x (map fst (get_variables vo p))) /\
    (forall x y, joinedv g' x y <-> joinedv g x y \/ (x <> y /\ exists p, In p qs /\ In x (map fst (get_variables vo p)) /\ In y (map fst (get_variables vo p))))).
  { induction qs as [|p qs IH]; intros g W NDq; cbn [fold_left]; cbv zeta.
    - split; [exact W|]. split.
      + intros x. split; [auto|]. intros [H|(p & [] & _)]. exact H.
      + intros x y. split; [auto|]. intros [H|(_ & p & [] & _)]. exact H.
    - destruct (assoc_vars_ok (map fst (get_variables vo p)) g [] W) as (W1 & N1 & J1). { intros x []. } cbv zeta in *.
      destruct (IH _ W1 (fun q Hq => NDq q (or_intror Hq))) as (W2 & N2 & J2). split; [exact W2|]. split.
      + intros x. rewrite N2, N1. split.
        * intros [[H|H]|(q & Hq & H)]; [auto|right; exists p; split; [left; reflexivity|exact H]|right; exists q; split; [right; exact Hq|exact H]].
        * intros [H|(q & [<-|Hq] & H)]; [auto|auto|right; exists q; auto].
      + intros x y. rewrite J2, J1. specialize (NDq p (or_introl eq_refl)). set (vs := map fst (get_variables vo p)) in *.
        assert (X : (exists l1 v l2, vs = l1 ++ v :: l2 /\ ((x = v /\ In y ([] ++ l1)) \/ (y = v /\ In x ([] ++ l1)))) <-> x <> y /\ In x vs /\ In y vs).
        { cbn [app]. split.
          - intros (l1 & v & l2 & E & H). rewrite E in *. apply NoDup_remove_2 in NDq. rewrite !in_app_iff in *. cbn [In] in *.
            destruct H as [[-> H]|[-> H]]; (split; [intros ->; tauto|tauto]).
          - intros (Nxy & Hx & Hy). destruct (in_split x vs Hx) as (l1 & l2 & E). rewrite E in Hy. apply in_app_iff in Hy as [Hy|[->|Hy]]; [|congruence|].
            + exists l1, x, l2. auto.
            + destruct (in_split y l2 Hy) as (l3 & l4 & E'). exists (l1 ++ x :: l3), y, l4. rewrite E, E', <- app_assoc. split; [reflexivity|]. right. split; [reflexivity|]. rewrite in_app_iff. cbn [In]. auto. }
        rewrite X. split.
        * intros [[H|(A1 & A2 & A3)]|(A1 & q & Hq & H)]; [auto|right; split; [exact A1|exists p; split; [left; reflexivity|auto]]|right; split; [exact A1|exists q; split; [right; exact Hq|exact H]]].
        * intros [H|(A1 & q & [<-|Hq] & H)]; [auto|auto|right; split; [exact A1|exists q; auto]]. }
  destruct (Gen ps empty_graph (wf_empty N.eqb) ND) as (W & N1 & J1). split; [exact W|]. split.
  - intros x. rewrite N1. split; [intros [[]|H]; exact H|auto].
  - intros x y. rewrite J1. split; [intros [(i & j & Hi & _)|H]; [destruct i; discriminate|exact H]|auto].
Qed.
End Assoc.
