(** * The searches of associatedgraph.cc compute what they are meant to (Graph.v). *)
From Coq Require Import Sorted Permutation.
From Verif Require Import Prelude Graph GraphMath.

Lemma in_set_insert x y s : In x (set_insert y s) <-> x = y \/ In x s.
Proof.
  induction s as [|z s IH]; cbn [set_insert]; [cbn; intuition congruence|]. destruct (Nat.ltb_spec y z); [cbn; intuition congruence|].
  destruct (Nat.eqb_spec y z) as [->|]; [cbn; intuition congruence|]. cbn [In]. rewrite IH. intuition congruence.
Qed.
Lemma set_insert_sorted y s : StronglySorted lt s -> StronglySorted lt (set_insert y s).
Proof.
  induction 1 as [|z s H IH F]; cbn [set_insert]; [repeat constructor|]. destruct (Nat.ltb_spec y z) as [L|L].
  - constructor; [constructor; assumption|]. constructor; [exact L|]. eapply Forall_impl; [|exact F]. cbn. lia.
  - destruct (Nat.eqb_spec y z) as [->|N]; [constructor; assumption|]. constructor; [exact IH|]. rewrite Forall_forall in *. intros u Hu.
    apply in_set_insert in Hu as [->|Hu]; [lia|auto].
Qed.
Lemma set_mem_spec x s : set_mem x s = true <-> In x s.
Proof. unfold set_mem. rewrite existsb_exists. split; [intros (y & H & E); apply Nat.eqb_eq in E; subst; exact H|intros H; exists x; split; [exact H|apply Nat.eqb_refl]]. Qed.
Lemma sorted_nodup s : StronglySorted lt s -> NoDup s.
Proof. induction 1 as [|z s H IH F]; constructor; [|exact IH]. intros X. rewrite Forall_forall in F. specialize (F z X). lia. Qed.
Lemma length_lset {A} (l : list A) i x : length (lset l i x) = length l.
Proof. revert i. induction l as [|y l IH]; intros [|i]; cbn; [reflexivity..|]. rewrite IH. reflexivity. Qed.
Lemma nth_lset {A} (l : list A) i j x d : i < length l -> nth j (lset l i x) d = if j =? i then x else nth j l d.
Proof.
  revert i j. induction l as [|y l IH]; intros [|i] [|j] H; cbn in *; try lia; try reflexivity. rewrite IH by lia. reflexivity.
Qed.

(** adjacency *)
Definition edge (g : list (list nat)) (a b : nat) : Prop := In b (nth a g []).
Definition wf_adj (g : list (list nat)) : Prop := forall a, StronglySorted lt (nth a g []) /\ forall b, edge g a b -> a < length g /\ b < length g.
Definition symmetric (g : list (list nat)) : Prop := forall a b, edge g a b -> edge g b a.
Lemma adj_length g a b : length (adj_insert g a b) = length g.
Proof. apply length_lset. Qed.
Lemma edge_insert g a b x y : a < length g -> (edge (adj_insert g a b) x y <-> edge g x y \/ (x = a /\ y = b)).
Proof.
  intros H. unfold edge, adj_insert. rewrite nth_lset by exact H. destruct (Nat.eqb_spec x a) as [->|N]; [rewrite in_set_insert; intuition congruence|intuition congruence].
Qed.
Lemma wf_insert g a b : wf_adj g -> a < length g -> b < length g -> wf_adj (adj_insert g a b).
Proof.
  intros W A B x. split.
  - unfold adj_insert. rewrite nth_lset by exact A. destruct (x =? a); [apply set_insert_sorted|]; apply W.
  - intros y H. rewrite adj_length. apply (edge_insert g a b x y A) in H as [H|[-> ->]]; [apply (proj2 (W x)), H|auto].
Qed.
Lemma wf_in_range g : wf_adj g -> in_range g = true.
Proof.
  intros W. unfold in_range. apply forallb_forall. intros s Hs. apply forallb_forall. intros j Hj. apply Nat.ltb_lt.
  apply (In_nth _ _ []) in Hs as (a & _ & <-). apply (proj2 (W a) j Hj).
Qed.

(** ** the choice of the next vertex *)
Section Pick.
Variables (rnd : nat -> nat -> bool) (i : nat) (w : nat -> nat) (num : nat -> bool).
Lemma pick_fold l : forall best, (forall wm v, best = Some (wm, v) -> num v = false /\ wm = w v) ->
  match fold_left (pick_step rnd i w num) l best with
  | None => best = None /\ forall x, In x l -> num x = true
  | Some (wm, v) => num v = false /\ wm = w v /\ (In v l \/ (exists b, best = Some (b, v))) /\ (forall x, In x l -> num x = false -> w x <= wm) /\
      (forall b u, best = Some (b, u) -> b <= wm)
  end.
Proof.
  induction l as [|j l IH]; intros best Hb; cbn [fold_left].
  - destruct best as [[wm v]|]; [|split; [reflexivity|intros x []]]. destruct (Hb _ _ eq_refl). repeat split; try assumption; [right; eauto|intros x []|]. intros b u [= <- _]. lia.
  - assert (Hs : forall wm v, pick_step rnd i w num best j = Some (wm, v) -> num v = false /\ wm = w v).
    { unfold pick_step. intros wm v. destruct best as [[b u]|].
      - destruct (num j) eqn:Nj; [apply Hb|]. destruct (b <? w j); [intros [= <- <-]; auto|]. destruct ((w j =? b) && rnd i j) eqn:Eq; [|apply Hb].
        intros [= <- <-]. apply andb_prop in Eq as [Eq _]. apply Nat.eqb_eq in Eq. auto.
      - destruct (num j) eqn:Nj; [discriminate|]. intros [= <- <-]. auto. }
    specialize (IH _ Hs). destruct (fold_left (pick_step rnd i w num) l (pick_step rnd i w num best j)) as [[wm v]|] eqn:Ef.
    + destruct IH as (A & B & C & D & E). split; [exact A|]. split; [exact B|].
      unfold pick_step in C, E. destruct best as [[b u]|].
      * destruct (num j) eqn:Nj.
        { split; [destruct C as [C|C]; [left; right; exact C|right; exact C]|]. split; [intros x [<-|Hx] Nx; [congruence|auto]|exact E]. }
        destruct (Nat.ltb_spec b (w j)) as [L|L].
        { specialize (E _ _ eq_refl). split; [left; destruct C as [C|[b' [= _ <-]]]; [right; exact C|left; reflexivity]|]. split; [intros x [<-|Hx] Nx; [exact E|auto]|]. intros b' u' [= <- <-]. lia. }
        destruct ((w j =? b) && rnd i j) eqn:Eq.
        { apply andb_prop in Eq as [Eq _]. apply Nat.eqb_eq in Eq. specialize (E _ _ eq_refl).
          split; [left; destruct C as [C|[b' [= _ <-]]]; [right; exact C|left; reflexivity]|]. split; [intros x [<-|Hx] Nx; [lia|auto]|]. intros b' u' [= <- <-]. lia. }
        specialize (E _ _ eq_refl). split; [destruct C as [C|C]; [left; right; exact C|right; exact C]|]. split; [intros x [<-|Hx] Nx; [lia|auto]|]. intros b' u' [= <- <-]. lia.
      * destruct (num j) eqn:Nj.
        { split; [destruct C as [C|C]; [left; right; exact C|right; exact C]|]. split; [intros x [<-|Hx] Nx; [congruence|auto]|exact E]. }
        specialize (E _ _ eq_refl). split; [left; destruct C as [C|[b' [= _ <-]]]; [right; exact C|left; reflexivity]|]. split; [intros x [<-|Hx] Nx; [lia|auto]|discriminate].
    + destruct IH as [A B]. unfold pick_step in A. destruct best as [[b u]|].
      * destruct (num j); [discriminate|]. destruct (b <? w j); [discriminate|]. destruct (_ && _); discriminate.
      * destruct (num j) eqn:Nj; [|discriminate]. split; [reflexivity|]. intros x [<-|Hx]; auto.
Qed.
Lemma pick_ok n : (exists z, z < n /\ num z = false) ->
  exists v, pick rnd n i w num = Some (w v, v) /\ v < n /\ num v = false /\ forall z, z < n -> num z = false -> w z <= w v.
Proof.
  intros (z & Lz & Nz). unfold pick. pose proof (pick_fold (seq 0 n) None ltac:(discriminate)) as H.
  destruct (fold_left (pick_step rnd i w num) (seq 0 n) None) as [[wm v]|].
  - destruct H as (A & -> & C & D & _). exists v. split; [reflexivity|]. destruct C as [C|[b C]]; [|discriminate]. apply in_seq in C.
    split; [lia|]. split; [exact A|]. intros y Ly. apply D. apply in_seq. lia.
  - destruct H as [_ H]. rewrite (H z) in Nz by (apply in_seq; lia). discriminate.
Qed.
End Pick.

(** ** the search of MCS-M *)
Lemma fupd_same {X} (f : nat -> X) i x : fupd f i x i = x.
Proof. unfold fupd. rewrite Nat.eqb_refl. reflexivity. Qed.
Lemma fupd_other {X} (f : nat -> X) i x j : j <> i -> fupd f i x j = f j.
Proof. intros N. unfold fupd. destruct (Nat.eqb_spec j i); [contradiction|reflexivity]. Qed.
Lemma mod_inj n a b : 0 < n -> a < b -> b < a + n -> a mod n <> b mod n.
Proof.
  intros Hn Hab Hbn E. pose proof (Nat.div_mod a n ltac:(lia)) as A. pose proof (Nat.div_mod b n ltac:(lia)) as B. rewrite E in A.
  assert (X : b - a = n * (b / n - a / n)) by nia. destruct (Nat.eq_dec (b / n - a / n) 0) as [Z|Z]; [rewrite Z in X; lia|]. nia.
Qed.
Definition msum (f : nat -> nat) (n : nat) : nat := list_sum (map f (seq 0 n)).
Lemma msum_ext f g n : (forall x, x < n -> f x = g x) -> msum f n = msum g n.
Proof. intros H. unfold msum. f_equal. apply map_ext_in. intros x Hx. apply in_seq in Hx. apply H. lia. Qed.
Lemma msum_S f n : msum f (S n) = msum f n + f n.
Proof. unfold msum. rewrite seq_S, map_app, list_sum_app. cbn. lia. Qed.
Lemma msum_upd f n j x : j < n -> msum (fupd f j x) n + f j = msum f n + x.
Proof.
  induction n as [|n IH]; intros H; [lia|]. rewrite !msum_S. destruct (Nat.eq_dec j n) as [->|N].
  - rewrite fupd_same. rewrite (msum_ext (fupd f n x) f n); [lia|]. intros y Hy. apply fupd_other. lia.
  - rewrite (fupd_other f j x n) by lia. specialize (IH ltac:(lia)). lia.
Qed.

Section Bfs.
Variables (g : list (list nat)) (v : nat) (w : nat -> nat) (num : nat -> bool) (B : nat).
Notation n := (length g).
Hypothesis W : wf_adj g.
Hypothesis Sy : symmetric g.
Hypothesis Vn : v < n.
Hypothesis Nv : num v = true.
Hypothesis HB : forall x, x < n -> w x <= B.
Definition U (x : nat) : Prop := x < n /\ num x = false.
Definition low (z x : nat) : Prop := U x /\ w x < w z.
Definition val (o : option nat) : nat := match o with None => S B | Some d => d end.
Definition mu (s : bfs_state) (q : list nat) : nat := 2 * msum (fun x => val (t1 s x)) n + length q.

Record inv (s : bfs_state) (tb : nat) (q : list nat) : Prop := {
  i_te : te s = tb + length q;
  i_buf : forall k, k < length q -> t2 s ((tb + k) mod n) = nth k q 0;
  i_nd : NoDup q;
  i_flag : forall x, t3 s x = true <-> In x q;
  i_q : forall x, In x q -> t1 s x <> None;
  i_v : t1 s v = Some 0;
  i_lab : forall x d, t1 s x = Some d -> x = v \/ (U x /\ w x <= d /\ d <= B /\ via (edge g) (fun y => U y /\ w y <= d) v x);
  i_len : length (bg s) = n;
  i_wf : wf_adj (bg s);
  i_g : forall a b, edge (bg s) a b <-> edge g a b \/ (a = v /\ t4 s b = true) \/ (b = v /\ t4 s a = true);
  i_t4 : forall z, t4 s z = true -> edge g v z \/ (U z /\ via (edge g) (low z) v z);
  i_e : forall z, edge g v z -> t4 s z = true;
  i_nv : ~ In v q }.
Definition closed_at (s : bfs_state) (x j : nat) : Prop :=
  forall d, t1 s x = Some d -> U j -> j = x \/ ((exists d', t1 s j = Some d' /\ d' <= Nat.max d (w j)) /\ (d < w j -> t4 s j = true)).
Definition closed (s : bfs_state) (q : list nat) (c : nat) : Prop :=
  forall x, x <> c -> ~ In x q -> forall j, edge g x j -> closed_at s x j.

Lemma inv_range s tb q x : inv s tb q -> In x q -> x < n.
Proof.
  intros I Hx. destruct (t1 s x) as [d|] eqn:E; [|destruct (i_q _ _ _ I x Hx E)].
  destruct (i_lab _ _ _ I x d E) as [->|((L & _) & _)]; assumption.
Qed.
Lemma relax_ok s tb q x d j : inv s tb q -> t1 s x = Some d -> ~ In x q -> (x = v -> forall z, t4 s z = true -> edge g v z) -> (edge g x j \/ num j = true) -> j < n ->
  let s' := relax n v w num x s j in
  exists q', inv s' tb q' /\ t1 s' x = Some d /\ ~ In x q' /\ (x = v -> forall z, t4 s' z = true -> edge g v z) /\ mu s' q' <= mu s q /\
    closed_at s' x j /\ (forall y, closed_at s x y -> closed_at s' x y) /\ (closed s q x -> closed s' q' x).
Proof.
  intros I Ex Nx Hvx Hj Lj s'. unfold s', relax. clear s'.
  destruct ((j =? x) || num j) eqn:Eskip.
  { exists q. split; [exact I|]. split; [exact Ex|]. split; [exact Nx|]. split; [exact Hvx|]. split; [lia|]. split; [|auto].
    intros d' _ [_ Nj]. left. apply orb_prop in Eskip as [Eq|Eq]; [apply Nat.eqb_eq in Eq; exact Eq|congruence]. }
  apply orb_false_elim in Eskip as [Njx Nj]. apply Nat.eqb_neq in Njx. destruct Hj as [Hj|Hj]; [|congruence].
  rewrite Ex. cbv zeta. set (lt := d <? w j). set (t5 := if lt then w j else d).
  assert (E5 : t5 = Nat.max d (w j)) by (unfold t5, lt; destruct (Nat.ltb_spec d (w j)); lia).
  assert (Uj : U j) by (split; assumption).
  assert (Njv : j <> v) by (intros ->; congruence).
  assert (V5 : via (edge g) (fun y => U y /\ w y <= t5) v j).
  { destruct (i_lab _ _ _ I x d Ex) as [->|(Ux & Lw & _ & V)]; [apply via_edge, Hj|]. apply (via_snoc _ _ _ x); [|split; [exact Ux|lia]|exact Hj].
    eapply via_mono; [|exact V]. intros y [A C]. split; [exact A|lia]. }
  assert (dB : d <= B).
  { destruct (i_lab _ _ _ I x d Ex) as [->|(_ & _ & L & _)]; [|exact L]. rewrite (i_v _ _ _ I) in Ex. injection Ex as <-. lia. }
  assert (B5 : t5 <= B) by (pose proof (HB j Lj); lia).
  set (fill := lt && negb (t4 s j)).
  set (g' := if fill then adj_insert (adj_insert (bg s) j v) v j else bg s).
  set (f4 := if fill then fupd (t4 s) j true else t4 s).
  assert (Hf4 : forall z, f4 z = true <-> t4 s z = true \/ (fill = true /\ z = j)).
  { intros z. unfold f4. destruct fill; [|intuition congruence]. unfold fupd. destruct (Nat.eqb_spec z j); intuition congruence. }
  assert (F4 : d < w j -> f4 j = true).
  { intros L. apply Hf4. unfold fill, lt. destruct (Nat.ltb_spec d (w j)); [|lia]. destruct (t4 s j); auto. }
  assert (Fx : x = v -> fill = false).
  { intros ->. unfold fill. rewrite (i_e _ _ _ I j Hj). destruct lt; reflexivity. }
  assert (Fl : fill = true -> via (edge g) (low j) v j).
  { intros F. unfold fill, lt in F. apply andb_prop in F as [F _]. apply Nat.ltb_lt in F. destruct (i_lab _ _ _ I x d Ex) as [->|(Ux & Lw & _ & V)]; [apply via_edge, Hj|].
    apply (via_snoc _ _ _ x); [|split; [exact Ux|lia]|exact Hj]. eapply via_mono; [|exact V]. intros y [A C]. split; [exact A|lia]. }
  assert (Lg : length g' = n) by (unfold g'; destruct fill; rewrite ?adj_length; apply (i_len _ _ _ I)).
  assert (Wg : wf_adj g').
  { unfold g'. destruct fill; [|apply (i_wf _ _ _ I)]. apply wf_insert; [apply wf_insert; [apply (i_wf _ _ _ I)|..]|..]; rewrite ?adj_length, (i_len _ _ _ I); assumption. }
  assert (Eg : forall a b, edge g' a b <-> edge g a b \/ (a = v /\ f4 b = true) \/ (b = v /\ f4 a = true)).
  { intros a b. rewrite !Hf4. unfold g'. destruct fill eqn:Ef.
    - rewrite edge_insert by (rewrite adj_length, (i_len _ _ _ I); exact Vn). rewrite edge_insert by (rewrite (i_len _ _ _ I); exact Lj). rewrite (i_g _ _ _ I). intuition.
    - rewrite (i_g _ _ _ I). intuition congruence. }
  assert (T4 : forall z, f4 z = true -> edge g v z \/ (U z /\ via (edge g) (low z) v z)).
  { intros z Hz. apply Hf4 in Hz as [Hz|[F ->]]; [apply (i_t4 _ _ _ I), Hz|right; auto]. }
  assert (T4e : forall z, edge g v z -> f4 z = true) by (intros z Hz; apply Hf4; left; apply (i_e _ _ _ I), Hz).
  assert (T4x : x = v -> forall z, f4 z = true -> edge g v z).
  { intros Hv z Hz. apply Hf4 in Hz as [Hz|[F _]]; [apply Hvx; assumption|rewrite (Fx Hv) in F; discriminate]. }
  set (s1 := fun f1 f2 f3 fe => Bfs g' f1 f2 f3 f4 fe).
  assert (Keep : less_inf t5 (t1 s j) = false -> exists q', inv (s1 (t1 s) (t2 s) (t3 s) (te s)) tb q' /\ t1 s x = Some d /\ ~ In x q' /\ (x = v -> forall z, f4 z = true -> edge g v z) /\
    mu (s1 (t1 s) (t2 s) (t3 s) (te s)) q' <= mu s q /\ closed_at (s1 (t1 s) (t2 s) (t3 s) (te s)) x j /\ (forall y, closed_at s x y -> closed_at (s1 (t1 s) (t2 s) (t3 s) (te s)) x y) /\
    (closed s q x -> closed (s1 (t1 s) (t2 s) (t3 s) (te s)) q' x)).
  { intros Eq. exists q. assert (C4 : forall y z, closed_at s y z -> closed_at (s1 (t1 s) (t2 s) (t3 s) (te s)) y z).
    { intros y z C e He Uz. destruct (C e He Uz) as [C1|[C1 C2]]; [left; exact C1|right]. split; [exact C1|]. intros L. cbn [t4 s1]. apply Hf4. left. apply C2, L. }
    split; [destruct I; constructor; cbn [s1 bg t1 t2 t3 t4 te]; assumption|]. split; [exact Ex|]. split; [exact Nx|]. split; [exact T4x|]. split; [apply Nat.le_refl|]. split; [|split].
    - intros e He _. cbn [s1 t1] in He. rewrite Ex in He. injection He as <-. right. split; [|exact F4]. unfold less_inf in Eq. cbn [s1 t1].
      destruct (t1 s j) as [dj|]; [|discriminate]. exists dj. split; [reflexivity|]. apply Nat.ltb_ge in Eq. lia.
    - intros y. apply C4.
    - intros C y Ny Nq z Hz. apply C4, C; assumption. }
  destruct (less_inf t5 (t1 s j)) eqn:Eless; [clear Keep|exact (Keep eq_refl)].
  set (f1 := fupd (t1 s) j (Some t5)).
  assert (Hx1 : f1 x = Some d) by (unfold f1; rewrite fupd_other by congruence; exact Ex).
  assert (Lab : forall y e, f1 y = Some e -> y = v \/ (U y /\ w y <= e /\ e <= B /\ via (edge g) (fun u => U u /\ w u <= e) v y)).
  { intros y e. unfold f1. destruct (Nat.eq_dec y j) as [->|Ny]; [|rewrite fupd_other by exact Ny; apply (i_lab _ _ _ I)]. rewrite fupd_same. intros [= <-]. right. split; [exact Uj|]. split; [lia|]. split; [exact B5|exact V5]. }
  assert (Le : forall y e, t1 s y = Some e -> exists e', f1 y = Some e' /\ e' <= e).
  { intros y e He. unfold f1. destruct (Nat.eq_dec y j) as [->|Ny]; [|rewrite fupd_other by exact Ny; eauto]. rewrite fupd_same. exists t5. split; [reflexivity|].
    rewrite He in Eless. cbn in Eless. apply Nat.ltb_lt in Eless. lia. }
  assert (Mu : msum (fun y => val (f1 y)) n + 1 <= msum (fun y => val (t1 s y)) n).
  { pose proof (msum_upd (fun y => val (t1 s y)) n j t5 Lj) as M. rewrite (msum_ext (fun y => val (f1 y)) (fupd (fun y => val (t1 s y)) j t5) n).
    - cbv beta in M. destruct (t1 s j) as [dj|]; cbn [val less_inf] in *; [apply Nat.ltb_lt in Eless|]; lia.
    - intros y _. unfold f1, fupd. destruct (y =? j); reflexivity. }
  assert (Clo : forall y z f2 f3 fe, y <> j -> closed_at s y z -> closed_at (s1 f1 f2 f3 fe) y z).
  { intros y z f2 f3 fe Ny C e He Uz. cbn [s1 t1 t4] in *. assert (He' : t1 s y = Some e) by (unfold f1 in He; rewrite fupd_other in He by exact Ny; exact He).
    destruct (C e He' Uz) as [C1|[(e' & C1 & C2) C3]]; [left; exact C1|right]. split.
    - destruct (Le z e' C1) as (e2 & E2 & L2). exists e2. split; [exact E2|lia].
    - intros L. apply Hf4. left. apply C3, L. }
  assert (Cj : forall f2 f3 fe, closed_at (s1 f1 f2 f3 fe) x j).
  { intros f2 f3 fe e He _. cbn [s1 t1 t4] in *. rewrite Hx1 in He. injection He as <-. right. split; [|exact F4]. exists t5. unfold f1. rewrite fupd_same. split; [reflexivity|lia]. }
  destruct (t3 s j) eqn:E3.
  - exists q. pose proof (proj1 (i_flag _ _ _ I j) E3) as Hin. split; [|split; [exact Hx1|split; [exact Nx|split; [exact T4x|split; [|split; [apply Cj|split]]]]]].
    + destruct I. constructor; cbn [s1 bg t1 t2 t3 t4 te]; try assumption.
      * intros y Hy. destruct (t1 s y) as [e|] eqn:Ey; [|destruct (i_q0 y Hy Ey)]. destruct (Le y e Ey) as (e' & Ee & _). congruence.
      * unfold f1. rewrite fupd_other by congruence. exact i_v0.
    + unfold mu. cbn [s1 t1]. fold f1. lia.
    + intros y C. apply Clo; [congruence|exact C].
    + intros C y Ny Nq z Hz. apply Clo; [intros ->; contradiction|]. apply C; assumption.
  - exists (q ++ [j]). assert (Nq : ~ In j q) by (intros H; apply (i_flag _ _ _ I) in H; congruence).
    assert (Lq : length q < n).
    { pose proof (NoDup_incl_length (l := j :: q) (l' := seq 0 n)) as X. rewrite seq_length in X. cbn [length] in X. apply X; [constructor; [exact Nq|apply (i_nd _ _ _ I)]|].
      intros y [<-|Hy]; apply in_seq; [lia|]. pose proof (inv_range s tb q y I Hy). lia. }
    assert (ND : NoDup (q ++ [j])).
    { apply (Permutation_NoDup (l := j :: q)); [apply Permutation_cons_append|]. constructor; [exact Nq|apply (i_nd _ _ _ I)]. }
    split; [|split; [exact Hx1|split; [|split; [exact T4x|split; [|split; [apply Cj|split]]]]]].
    + pose proof (i_te _ _ _ I) as Ite. destruct I. constructor; cbn [s1 bg t1 t2 t3 t4 te]; try assumption.
      * rewrite app_length. cbn [length]. lia.
      * intros k Hk. rewrite app_length in Hk. cbn [length] in Hk. destruct (Nat.eq_dec k (length q)) as [->|Nk].
        { rewrite app_nth2, Nat.sub_diag by lia. cbn [nth]. rewrite Ite. apply fupd_same. }
        { rewrite app_nth1 by lia. rewrite fupd_other; [apply i_buf0; lia|]. rewrite Ite. apply mod_inj; lia. }
      * intros y. unfold fupd. rewrite in_app_iff. destruct (Nat.eqb_spec y j) as [->|Ny]; [cbn; intuition|]. rewrite i_flag0. cbn. intuition congruence.
      * intros y Hy. fold f1. apply in_app_iff in Hy as [Hy|[<-|[]]]; [|unfold f1; rewrite fupd_same; discriminate].
        destruct (t1 s y) as [e|] eqn:Ey; [|destruct (i_q0 y Hy Ey)]. destruct (Le y e Ey) as (e' & Ee & _). congruence.
      * unfold f1. rewrite fupd_other by congruence. exact i_v0.
      * intros H. apply in_app_iff in H as [H|[H|[]]]; [exact (i_nv0 H)|congruence].
    + intros H. apply in_app_iff in H as [H|[H|[]]]; [exact (Nx H)|congruence].
    + unfold mu. cbn [s1 t1]. fold f1. rewrite app_length. cbn [length]. lia.
    + intros y C. apply Clo; [congruence|exact C].
    + intros C y Ny Nq' z Hz. apply Clo; [intros ->; apply Nq', in_app_iff; right; left; reflexivity|]. apply C; [assumption| |assumption]. intros H. apply Nq', in_app_iff. left. exact H.
Qed.
Lemma relax_fold l : forall s tb q x d, inv s tb q -> t1 s x = Some d -> ~ In x q -> (x = v -> forall z, t4 s z = true -> edge g v z) ->
  (forall j, In j l -> (edge g x j \/ num j = true) /\ j < n) -> closed s q x -> 
  let s' := fold_left (relax n v w num x) l s in
  exists q', inv s' tb q' /\ t1 s' x = Some d /\ ~ In x q' /\ mu s' q' <= mu s q /\ closed s' q' x /\ (forall j, In j l \/ closed_at s x j -> closed_at s' x j).
Proof.
  induction l as [|j l IH]; intros s tb q x d I Ex Nx Hx Hl C; cbn [fold_left]; cbv zeta.
  - exists q. repeat (split; [first [assumption | apply Nat.le_refl]|]). intros j [[]|H]; exact H.
  - destruct (Hl j (or_introl eq_refl)) as [Hj Lj]. destruct (relax_ok s tb q x d j I Ex Nx Hx Hj Lj) as (q1 & I1 & E1 & N1 & H1 & M1 & C1 & K1 & K2).
    destruct (IH _ tb q1 x d I1 E1 N1 H1 (fun y Hy => Hl y (or_intror Hy)) (K2 C)) as (q2 & I2 & E2 & N2 & M2 & C2 & K3).
    exists q2. split; [exact I2|]. split; [exact E2|]. split; [exact N2|]. split; [eapply Nat.le_trans; eassumption|]. split; [exact C2|]. intros y [[<-|Hy]|Hy]; apply K3; auto.
Qed.
(** one round of the queue; [x] is at its head *)
Lemma pop_ok s tb x q : inv s tb (x :: q) -> (forall y, closed s (x :: q) y) ->
  let s1 := Bfs (bg s) (t1 s) (t2 s) (fupd (t3 s) x false) (t4 s) (te s) in
  let s' := fold_left (relax n v w num x) (nth x (bg s) []) s1 in
  t2 s (tb mod n) = x /\ exists q', inv s' (S tb) q' /\ (forall y, closed s' q' y) /\ mu s' q' < mu s (x :: q).
Proof.
  intros I C s1 s'. split.
  { pose proof (i_buf _ _ _ I 0 ltac:(cbn; lia)) as X. rewrite Nat.add_0_r in X. exact X. }
  destruct (t1 s x) as [d|] eqn:Ex; [|destruct (i_q _ _ _ I x (or_introl eq_refl) Ex)].
  assert (Nx : ~ In x q) by (pose proof (i_nd _ _ _ I) as X; inversion X; assumption).
  assert (Nxv : x <> v) by (intros ->; apply (i_nv _ _ _ I); left; reflexivity).
  assert (I1 : inv s1 (S tb) q).
  { destruct I. constructor; cbn [s1 bg t1 t2 t3 t4 te]; try assumption.
    - cbn [length] in i_te0. lia.
    - intros k Hk. specialize (i_buf0 (S k)). cbn [length nth] in i_buf0. rewrite <- i_buf0 by lia. f_equal. f_equal. lia.
    - inversion i_nd0; assumption.
    - intros y. unfold fupd. destruct (Nat.eqb_spec y x) as [->|Ny]; [intuition congruence|]. rewrite i_flag0. cbn. intuition congruence.
    - intros y Hy. apply i_q0. right. exact Hy.
    - intros H. apply i_nv0. right. exact H. }
  assert (C1 : closed s1 q x).
  { intros y Ny Nq j Hj. apply (C x y Ny); [|exact Hj]. intros [->|H]; contradiction. }
  destruct (relax_fold (nth x (bg s) []) s1 (S tb) q x d I1 Ex Nx (fun H => match Nxv H with end)) as (q' & I2 & E2 & N2 & M2 & C2 & K).
  { intros j Hj. pose proof (proj2 (i_wf _ _ _ I x) j Hj) as [_ L]. rewrite (i_len _ _ _ I) in L. split; [|exact L].
    apply (i_g _ _ _ I) in Hj as [Hj|[[Hj _]|[-> _]]]; [left; exact Hj|contradiction|right; exact Nv]. }
  { exact C1. }
  exists q'. split; [exact I2|]. split.
  - intros c y _ Nq j Hj. destruct (Nat.eq_dec y x) as [->|Ny].
    + apply K. left. apply (i_g _ _ _ I). left. exact Hj.
    + apply (C2 y Ny Nq j Hj).
  - unfold s'. eapply Nat.le_lt_trans; [exact M2|]. unfold mu. cbn [s1 t1 length]. lia.
Qed.
Lemma bfs_loop_ok m : forall s tb q, mu s q < m -> inv s tb q -> (forall y, closed s q y) ->
  exists s', (forall fuel, m <= fuel -> bfs fuel n v w num tb s = Ok (bg s')) /\ (exists tb', inv s' tb' []) /\ forall y, closed s' [] y.
Proof.
  induction m as [|m IH]; intros s tb q Hm I C; [lia|]. destruct q as [|x q].
  - exists s. split; [|split; [exists tb; exact I|exact C]]. intros [|f] _; cbn [bfs]; rewrite (i_te _ _ _ I), Nat.add_0_r, Nat.eqb_refl; reflexivity.
  - destruct (pop_ok s tb x q I C) as (Eb & q' & I' & C' & M'). apply Nat.succ_le_mono in Hm. destruct (IH _ _ q' (Nat.lt_le_trans _ _ _ M' Hm) I' C') as (s' & T & I2 & C2). exists s'. split; [|auto].
    intros [|f] Hf; [lia|]. cbn [bfs]. destruct (Nat.eqb_spec tb (te s)) as [E|_]; [rewrite (i_te _ _ _ I) in E; cbn [length] in E; lia|].
    rewrite Eb. apply T. lia.
Qed.
(** the whole search *)
Theorem bfs_ok : exists m g', (forall fuel, m <= fuel -> bfs fuel n v w num 0 (bfs_start g v) = Ok g') /\ length g' = n /\ wf_adj g' /\
  (forall a b, edge g' a b <-> edge g a b \/ (a = v /\ U b /\ via (edge g) (low b) v b) \/ (b = v /\ U a /\ via (edge g) (low a) v a)).
Proof.
  set (s0 := Bfs g (fupd (fun _ => None) v (Some 0)) (fupd (fun _ => 0) 0 v) (fupd (fupd (fun _ => false) v true) v false) (fun j => set_mem j (nth v g [])) 1).
  assert (I0 : inv s0 1 []).
  { constructor; cbn [s0 bg t1 t2 t3 t4 te length].
    - reflexivity.
    - intros k Hk; lia.
    - constructor.
    - intros x. unfold fupd. destruct (x =? v); cbn; intuition discriminate.
    - intros x [].
    - apply fupd_same.
    - intros x d. unfold fupd. destruct (Nat.eqb_spec x v); [auto|discriminate].
    - reflexivity.
    - exact W.
    - intros a b. rewrite !set_mem_spec. fold (edge g v a). fold (edge g v b). split; [auto|]. intros [H|[[-> H]|[-> H]]]; [exact H|exact H|apply Sy, H].
    - intros z H. left. apply set_mem_spec, H.
    - intros z H. apply set_mem_spec, H.
    - intros []. }
  assert (C0 : closed s0 [] v).
  { intros x Nx _ j _ d Hd. cbn [s0 t1] in Hd. rewrite fupd_other in Hd by exact Nx. discriminate. }
  destruct (relax_fold (nth v g []) s0 1 [] v 0 I0 (fupd_same _ _ _) (fun H => H)) as (q1 & I1 & E1 & N1 & M1 & C1 & K).
  { intros _ z H. apply set_mem_spec, H. }
  { intros j Hj. split; [left; exact Hj|apply (proj2 (W v) j Hj)]. }
  { exact C0. }
  set (s1 := fold_left (relax n v w num v) (nth v g []) s0) in *.
  assert (C1' : forall y, closed s1 q1 y).
  { intros c y _ Nq j Hj. destruct (Nat.eq_dec y v) as [->|Ny]; [apply K; left; exact Hj|apply (C1 y Ny Nq j Hj)]. }
  destruct (bfs_loop_ok (S (mu s1 q1)) s1 1 q1 ltac:(lia) I1 C1') as (s' & T & (tb' & I') & C').
  exists (S (S (mu s1 q1))), (bg s'). split; [|split; [apply (i_len _ _ _ I')|split; [apply (i_wf _ _ _ I')|]]].
  { intros [|f] Hf; [lia|]. cbn [bfs bfs_start te t2]. change (0 =? 1) with false. cbv iota. rewrite Nat.mod_0_l by lia. rewrite fupd_same.
    cbn [bfs_start bg t1 t2 t3 t4 te]. apply T. lia. }
  (* completeness *)
  assert (Lbl : forall D x, (forall y, ~ In y (@nil nat)) -> via (edge g) (fun y => U y /\ w y <= D) v x -> U x -> exists e, t1 s' x = Some e /\ e <= Nat.max D (w x)).
  { intros D x _. revert x. apply (via_rev_ind _ _ _ (fun x => U x -> exists e, t1 s' x = Some e /\ e <= Nat.max D (w x))).
    - intros b Hb Ub. destruct (C' b v ltac:(intros ->; destruct Ub; congruence) (fun H => H) b Hb 0 (i_v _ _ _ I') Ub) as [->|[(e & Ee & Le) _]]; [destruct Ub; congruence|]. exists e. split; [exact Ee|lia].
    - intros y b _ [Uy Ly] IH Hyb Ub. destruct (IH Uy) as (e & Ee & Le). destruct (Nat.eq_dec b y) as [->|Nby]; [exists e; split; [exact Ee|lia]|].
      destruct (C' b y (fun H => Nby (eq_sym H)) (fun H => H) b Hyb e Ee Ub) as [->|[(e' & Ee' & Le') _]]; [contradiction|]. exists e'. split; [exact Ee'|lia]. }
  assert (Comp : forall z, U z -> via (edge g) (low z) v z -> t4 s' z = true).
  { intros z Uz V. assert (X : forall b, via (edge g) (low z) v b -> b = z -> t4 s' z = true).
    { apply (via_rev_ind _ _ _ (fun b => b = z -> t4 s' z = true)).
      - intros b Hb ->. apply (i_e _ _ _ I'), Hb.
      - intros y b Vy [Uy Ly] _ Hyb ->. assert (V' : via (edge g) (fun u => U u /\ w u <= w z - 1) v y) by (eapply via_mono; [|exact Vy]; intros u [A L]; split; [exact A|lia]).
        destruct (Lbl (w z - 1) y (fun _ H => H) V' Uy) as (e & Ee & Le).
        destruct (C' z y ltac:(intros ->; lia) (fun H => H) z Hyb e Ee Uz) as [->|[_ F]]; [lia|]. apply F. lia. }
    apply (X z V eq_refl). }
  intros a b. rewrite (i_g _ _ _ I' a b). split.
  - intros [H|[[-> H]|[-> H]]]; [left; exact H| |].
    + destruct (i_t4 _ _ _ I' b H) as [X|X]; [left; exact X|right; left; auto].
    + destruct (i_t4 _ _ _ I' a H) as [X|X]; [left; apply Sy, X|right; right; auto].
  - intros [H|[(-> & Ub & V)|(-> & Ua & V)]]; [left; exact H|right; left; auto|right; right; auto].
Qed.
End Bfs.
