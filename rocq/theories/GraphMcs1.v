(** * __MCS (Graph.v, [mcs]): the order returned, and why it is perfect on a chordal graph. *)
From Coq Require Import Sorted Permutation.
From Verif Require Import Prelude Graph GraphMath GraphMcs GraphMcsM.

(** no cycle of length >= 4 without a chord *)
Definition chordless_cycle (E : nat -> nat -> Prop) (r : nat) (x : nat -> nat) : Prop :=
  3 <= r /\ forall i j, i < j -> j <= r -> x i <> x j /\ (E (x i) (x j) <-> j = S i \/ (i = 0 /\ j = r)).
Definition chordal_graph (E : nat -> nat -> Prop) : Prop := ~ exists r x, chordless_cycle E r x.

(** ** the argument on times: vertex k is the one chosen in round k *)
Section Times.
Variables (n : nat) (f : nat -> nat -> bool).
Hypothesis fsym : forall a b, f a b = f b a.
Definition cnt (z k : nat) : nat := length (filter (fun u => f u z) (seq 0 k)).
Hypothesis mcs_max : forall k z, k < n -> k < z -> z < n -> cnt z k <= cnt k k.
Lemma filter_lt (a b : nat -> bool) l : (forall u, In u l -> a u = true -> b u = true) -> length (filter a l) <= length (filter b l).
Proof.
  induction l as [|x l IH]; intros H; cbn [filter]; [lia|]. specialize (IH (fun u Hu => H u (or_intror Hu))). specialize (H x (or_introl eq_refl)).
  destruct (a x); [rewrite (H eq_refl); cbn [length]; lia|]. destruct (b x); cbn [length]; lia.
Qed.
Lemma filter_lt' (a b : nat -> bool) l : (forall u, In u l -> a u = true -> b u = true) -> (exists u, In u l /\ b u = true /\ a u = false) -> length (filter a l) < length (filter b l).
Proof.
  induction l as [|x l IH]; intros H (u & Hu & Bu & Au); [destruct Hu|]. cbn [filter]. destruct Hu as [->|Hu].
  - rewrite Au, Bu. cbn [length]. pose proof (filter_lt a b l (fun u Hu => H u (or_intror Hu))). lia.
  - assert (X : length (filter a l) < length (filter b l)) by (apply IH; [intros v Hv; apply H; right; exact Hv|exists u; auto]).
    specialize (H x (or_introl eq_refl)). destruct (a x); [rewrite (H eq_refl); cbn [length]; lia|]. destruct (b x); cbn [length]; lia.
Qed.
Lemma private k z y : k < n -> k < z -> z < n -> y < k -> f y z = true -> f y k = false -> exists u, u < k /\ f u k = true /\ f u z = false.
Proof.
  intros Lk Lz Ln Ly A B. destruct (existsb (fun u => f u k && negb (f u z)) (seq 0 k)) eqn:Ex.
  - apply existsb_exists in Ex as (u & Hu & E). apply in_seq in Hu. apply andb_prop in E as [E1 E2]. exists u. split; [lia|]. split; [exact E1|]. destruct (f u z); [discriminate|reflexivity].
  - exfalso. pose proof (mcs_max k z Lk Lz Ln) as M. unfold cnt in M.
    assert (X : length (filter (fun u => f u k) (seq 0 k)) < length (filter (fun u => f u z) (seq 0 k))); [|lia].
    apply filter_lt'.
    + intros u Hu Fu. destruct (f u z) eqn:Fz; [reflexivity|]. assert (Y : existsb (fun u => f u k && negb (f u z)) (seq 0 k) = true); [|congruence].
      apply existsb_exists. exists u. rewrite Fu, Fz. auto.
    + exists y. split; [apply in_seq; lia|auto].
Qed.
(** the last index below m where p holds *)
Lemma last_true (p : nat -> bool) m : p 0 = true -> exists j, j <= m /\ p j = true /\ forall i, j < i -> i <= m -> p i = false.
Proof.
  intros P0. induction m as [|m (j & Lj & Pj & Hj)]; [exists 0; split; [lia|]; split; [exact P0|lia]|].
  destruct (p (S m)) eqn:E; [exists (S m); split; [lia|]; split; [exact E|lia]|]. exists j. split; [lia|]. split; [exact Pj|]. intros i A B.
  destruct (Nat.eq_dec i (S m)) as [->|]; [exact E|apply Hj; lia].
Qed.
Definition chordless_path (r : nat) (x : nat -> nat) : Prop :=
  2 <= r /\ (forall i, i <= r -> x i < n) /\ forall i j, i < j -> j <= r -> x i <> x j /\ (f (x i) (x j) = true <-> j = S i).
Hypothesis chordal : ~ exists r x, (forall i, i <= r -> x i < n) /\ chordless_cycle (fun a b => f a b = true) r x.
Lemma path_rev r x : chordless_path r x -> chordless_path r (fun i => x (r - i)).
Proof.
  intros (L & B & H). split; [exact L|]. split; [intros i Hi; apply B; lia|]. intros i j Hij Hj. destruct (H (r - j) (r - i) ltac:(lia) ltac:(lia)) as [A1 A2].
  split; [congruence|]. rewrite fsym, A2. lia.
Qed.
Lemma no_path m : forall r x, chordless_path r x -> x 0 <= m -> x r <= m -> (forall i, 0 < i -> i < r -> x 0 < x i /\ x r < x i) -> False.
Proof.
  induction m as [m IH] using lt_wf_ind.
  assert (Main : forall r x, chordless_path r x -> x 0 <= m -> x r < x 0 -> (forall i, 0 < i -> i < r -> x 0 < x i /\ x r < x i) -> False).
  { intros r x (L & B & H) Lm Lr0 Int.
    assert (Z1 : x 0 < x (r - 1)) by (apply Int; lia).
    assert (Fz : f (x r) (x (r - 1)) = true) by (rewrite fsym; apply (proj2 (H (r - 1) r ltac:(lia) ltac:(lia))); lia).
    assert (F0 : f (x r) (x 0) = false).
    { destruct (f (x r) (x 0)) eqn:E; [|reflexivity]. rewrite fsym in E. apply (proj2 (H 0 r ltac:(lia) ltac:(lia))) in E. lia. }
    destruct (private (x 0) (x (r - 1)) (x r) (B 0 ltac:(lia)) Z1 (B (r - 1) ltac:(lia)) Lr0 Fz F0) as (u & Lu & Fu & Fuz).
    destruct (last_true (fun i => f u (x i)) (r - 1) Fu) as (j & Lj & Fj & Hj). cbv beta in Fj, Hj.
    assert (Lj' : j <= r - 2). { destruct (Nat.eq_dec j (r - 1)) as [->|]; [congruence|lia]. }
    set (c := fun i => match i with 0 => u | S i' => x (j + i') end).
    assert (Bc : forall i, i <= r - j + 1 -> c i < n). { intros [|i] Hi; cbn [c]; [pose proof (B 0 ltac:(lia)); lia|apply B; lia]. }
    assert (Ux : forall i, i <= r -> u <> x i).
    { intros i Hi E. destruct (Nat.eq_dec i 0) as [->|N0]; [lia|]. destruct (Nat.eq_dec i r) as [->|Nr]; [subst u; congruence|]. pose proof (proj1 (Int i ltac:(lia) ltac:(lia))). lia. }
    assert (Hc : forall i k, 0 < i -> i < k -> k <= r - j + 1 -> c i <> c k /\ (f (c i) (c k) = true <-> k = S i)).
    { intros [|i] [|k] A1 A2 A3; try lia. cbn [c]. destruct (H (j + i) (j + k) ltac:(lia) ltac:(lia)) as [C1 C2]. split; [exact C1|]. rewrite C2. lia. }
    destruct (f u (x r)) eqn:Fur.
    - apply chordal. exists (r - j + 1), c. split; [exact Bc|]. split; [lia|]. intros i k A1 A2. destruct i as [|i].
      + destruct k as [|k]; [lia|]. cbn [c]. split; [apply Ux; lia|]. split.
        * intros E. destruct (Nat.eq_dec k 0) as [->|Nk]; [left; reflexivity|]. destruct (Nat.eq_dec (j + k) r) as [Ek|Nk']; [right; lia|]. rewrite Hj in E by lia. discriminate.
        * intros [E|[_ E]]; [assert (k = 0) by lia; subst k; rewrite Nat.add_0_r; exact Fj|]. replace (j + k) with r by lia. exact Fur.
      + destruct (Hc (S i) k ltac:(lia) A1 A2) as [C1 C2]. split; [exact C1|]. rewrite C2. lia.
    - assert (EC0 : c 0 = u) by reflexivity. assert (ECr : c (r - j + 1) = x r) by (replace (r - j + 1) with (S (r - j)) by lia; cbn [c]; f_equal; lia).
      apply (IH (Nat.max u (x r)) ltac:(lia) (r - j + 1) c).
      + split; [lia|]. split; [exact Bc|]. intros i k A1 A2. destruct i as [|i]; [|apply Hc; lia]. destruct k as [|k]; [lia|]. cbn [c]. split; [apply Ux; lia|]. split.
        * intros E. destruct (Nat.eq_dec k 0) as [->|Nk]; [reflexivity|]. destruct (Nat.eq_dec (j + k) r) as [Ek|Nk']; [rewrite Ek in E; congruence|]. rewrite Hj in E by lia. discriminate.
        * intros E. assert (k = 0) by lia. subst k. rewrite Nat.add_0_r. exact Fj.
      + rewrite EC0. lia.
      + rewrite ECr. lia.
      + rewrite EC0, ECr. intros [|i] A1 A2; [lia|]. cbn [c]. destruct (Nat.eq_dec (j + i) 0) as [E0|N0]; [rewrite E0; lia|]. pose proof (Int (j + i) ltac:(lia) ltac:(lia)). lia. }
  intros r x P L0 Lr Int. destruct (Nat.lt_trichotomy (x 0) (x r)) as [C|[C|C]].
  - apply (Main r (fun i => x (r - i)) (path_rev r x P)); rewrite ?Nat.sub_0_r, ?Nat.sub_diag; [exact Lr|exact C|]. intros i A1 A2. pose proof (Int (r - i) ltac:(lia) ltac:(lia)). lia.
  - destruct P as (P1 & _ & P). destruct (P 0 r ltac:(lia) ltac:(lia)) as [X _]. contradiction.
  - exact (Main r x P L0 C Int).
Qed.
Lemma times_perfect a b c : a < b -> b < c -> c < n -> f c a = true -> f c b = true -> f a b = true.
Proof.
  intros L1 L2 Lc Fa Fb. destruct (f a b) eqn:E; [reflexivity|exfalso].
  apply (no_path n 2 (fun i => match i with 0 => a | 1 => c | _ => b end)).
  - split; [lia|]. split; [intros [|[|i]] _; lia|]. intros [|[|i]] [|[|[|j]]] A1 A2; try lia; cbv beta iota.
    split; [lia|]. rewrite fsym. rewrite Fa. tauto.
  - cbv beta iota; lia.
  - cbv beta iota; lia.
  - intros [|[|i]] A1 A2; try lia; cbv beta iota; lia.
Qed.
End Times.

(** ** the loop *)
Section Loop.
Variables (rnd : nat -> nat -> bool) (g : list (list nat)).
Notation n := (length g).
Hypothesis W : wf_adj g.
Hypothesis Sy : symmetric g.
Definition chosen_nb (z : nat) (l : list nat) : nat := length (filter (fun u => set_mem z (nth u g [])) l).
(** every vertex of l had the most chosen neighbours when it was chosen *)
Definition mcs_order (l : list nat) : Prop :=
  forall l1 x l2, l = l1 ++ x :: l2 -> x < n /\ ~ In x l2 /\ forall z, z < n -> ~ In z l2 -> chosen_nb z l2 <= chosen_nb x l2.
Lemma fold_incr_num (num : nat -> bool) s : forall (w : nat -> nat) x, NoDup s -> num x = false ->
  fold_left (fun w j => if num j then w else fupd w j (S (w j))) s w x = w x + (if set_mem x s then 1 else 0).
Proof.
  induction s as [|j s IH]; intros w x ND Nx; cbn [fold_left set_mem existsb]; [lia|]. inversion ND; subst. rewrite IH by assumption.
  fold (set_mem x s). destruct (Nat.eqb_spec x j) as [->|Nxj]; cbn [orb].
  - rewrite Nx, fupd_same. destruct (set_mem j s) eqn:Ej; [apply set_mem_spec in Ej; contradiction|lia].
  - destruct (num j); [lia|]. rewrite fupd_other by exact Nxj. lia.
Qed.
Lemma mcs_loop_ok i : forall w num l, i + length l = n -> mcs_order l -> NoDup l -> (forall x, In x l -> x < n) -> (forall x, num x = true <-> In x l) -> (forall z, num z = false -> w z = chosen_nb z l) ->
  exists l', mcs_loop rnd g i w num l = Ok l' /\ mcs_order l' /\ Permutation l' (seq 0 n).
Proof.
  induction i as [|i IH]; intros w num l Hi Ho ND Rg Hn Hw.
  - exists l. split; [reflexivity|]. split; [exact Ho|]. apply NoDup_Permutation_bis; [exact ND|rewrite seq_length; lia|intros x Hx; apply in_seq; specialize (Rg x Hx); lia].
  - cbn [mcs_loop]. destruct (pick_ok rnd (S i) w num n) as (v & Ep & Lv & Nv & Mv).
    { destruct (existsb (fun z => negb (num z)) (seq 0 n)) eqn:Ex.
      - apply existsb_exists in Ex as (z & Hz & Nz). apply in_seq in Hz. exists z. split; [lia|]. destruct (num z); [discriminate|reflexivity].
      - exfalso. assert (X : length (seq 0 n) <= length l).
        { apply NoDup_incl_length; [apply seq_NoDup|]. intros z Hz. apply Hn. destruct (num z) eqn:Nz; [reflexivity|].
          assert (Y : existsb (fun z => negb (num z)) (seq 0 n) = true); [|congruence]. apply existsb_exists. exists z. rewrite Nz. auto. }
        rewrite seq_length in X. lia. }
    rewrite Ep. assert (Nin : ~ In v l) by (intros X; apply Hn in X; congruence).
    assert (Nn : forall z, num z = false <-> ~ In z l) by (intros z; rewrite <- Hn; destruct (num z); intuition congruence).
    apply IH.
    + cbn [length]. lia.
    + intros l1 x l2 E. destruct l1 as [|y l1]; cbn [app] in E; injection E as -> ->; [|apply (Ho l1 x l2 eq_refl)].
      split; [exact Lv|]. split; [exact Nin|]. intros z Lz Nz. apply Nn in Nz. rewrite <- (Hw z Nz), <- (Hw x Nv). apply Mv; assumption.
    + constructor; assumption.
    + intros x [<-|Hx]; [exact Lv|apply Rg, Hx].
    + intros x. unfold fupd. cbn [In]. destruct (Nat.eqb_spec x v) as [->|Nx]; [intuition|]. rewrite Hn. intuition congruence.
    + intros z Nz. rewrite fold_incr_num by (first [apply sorted_nodup, W|exact Nz]). unfold fupd in Nz. destruct (Nat.eqb_spec z v) as [Ezv|Nzv]; [discriminate Nz|].
      rewrite (Hw z Nz). unfold chosen_nb. cbn [filter]. destruct (set_mem z (nth v g [])); cbn [length]; lia.
Qed.
Theorem mcs_ok : exists l, mcs rnd g = Ok l /\ mcs_order l /\ Permutation l (seq 0 n).
Proof.
  unfold mcs. rewrite (wf_in_range g W). apply mcs_loop_ok.
  - cbn. lia.
  - intros l1 x l2 E. destruct l1; discriminate.
  - constructor.
  - intros x [].
  - intros x. split; [discriminate|intros []].
  - reflexivity.
Qed.
Theorem mcs_perfect l : (forall a, ~ edge g a a) -> chordal_graph (edge g) -> mcs_order l -> Permutation l (seq 0 n) -> perfect_order g l.
Proof.
  intros Irr Ch Ho P. pose proof (Permutation_length P) as Ll. rewrite seq_length in Ll.
  assert (ND : NoDup l) by (apply (Permutation_NoDup (Permutation_sym P)), seq_NoDup).
  set (v := fun k => nth k (rev l) 0).
  assert (Vin : forall k, k < n -> v k < n).
  { intros k Hk. assert (X : In (v k) l) by (apply in_rev, nth_In; rewrite rev_length; lia). apply (Permutation_in _ P), in_seq in X. lia. }
  assert (Inj : forall a b, a < n -> b < n -> v a = v b -> a = b).
  { intros a b La Lb E. assert (NR : NoDup (rev l)) by (apply NoDup_rev; exact ND). apply (proj1 (NoDup_nth (rev l) 0) NR); rewrite ?rev_length; try lia. exact E. }
  set (f := fun a b => set_mem (v b) (nth (v a) g [])).
  assert (Fe : forall a b, f a b = true <-> edge g (v a) (v b)) by (intros a b; apply set_mem_spec).
  assert (Fsym : forall a b, f a b = f b a).
  { intros a b. destruct (f a b) eqn:E1, (f b a) eqn:E2; try reflexivity; exfalso; [apply Fe, Sy, Fe in E1|apply Fe, Sy, Fe in E2]; congruence. }
  assert (Split : forall k, k < n -> exists l1, l = l1 ++ v k :: rev (map v (seq 0 k))).
  { intros k Hk. assert (Er : rev l = map v (seq 0 n)).
    { apply (nth_ext _ _ 0 0); [rewrite rev_length, map_length, seq_length; lia|]. intros i Hi. rewrite rev_length in Hi. rewrite (nth_indep (map v _) 0 (v 0)) by (rewrite map_length, seq_length; lia).
      rewrite map_nth, seq_nth by lia. reflexivity. }
    replace n with (k + S (n - k - 1)) in Er by lia. rewrite seq_app, map_app in Er. cbn [seq map Nat.add] in Er. apply (f_equal (@rev nat)) in Er. rewrite rev_involutive, rev_app_distr in Er.
    cbn [rev] in Er. rewrite <- app_assoc in Er. eexists. exact Er. }
  assert (Cnt : forall z k, chosen_nb (v z) (rev (map v (seq 0 k))) = cnt f z k).
  { intros z k. unfold chosen_nb, cnt. rewrite (Permutation_length (l' := filter (fun u => set_mem (v z) (nth u g [])) (map v (seq 0 k)))).
    - induction (seq 0 k) as [|u s IH]; [reflexivity|]. cbn [map filter]. unfold f at 1. destruct (set_mem (v z) (nth (v u) g [])); cbn [length]; rewrite IH; reflexivity.
    - assert (Hp : forall a b : list nat, Permutation a b -> forall q, Permutation (filter q a) (filter q b)).
      { clear. induction 1; intros q; cbn; [constructor| | |etransitivity; eauto].
        - destruct (q x); [constructor|]; auto.
        - destruct (q x), (q y); try reflexivity. constructor. }
      apply Hp. symmetry. apply Permutation_rev. }
  assert (Mx : forall k z, k < n -> k < z -> z < n -> cnt f z k <= cnt f k k).
  { intros k z Lk Lz Ln. destruct (Split k Lk) as [l1 E]. destruct (Ho l1 (v k) _ E) as (_ & _ & H). rewrite <- !Cnt. apply H; [apply Vin, Ln|].
    intros X. apply in_rev, in_map_iff in X as (i & Ei & Hi). apply in_seq in Hi. apply Inj in Ei; lia. }
  assert (Ch' : ~ exists r x, (forall i, i <= r -> x i < n) /\ chordless_cycle (fun a b => f a b = true) r x).
  { intros (r & x & B & L & H). apply Ch. exists r, (fun i => v (x i)). split; [exact L|]. intros i j Hij Hj. destruct (H i j Hij Hj) as [A1 A2]. split.
    - intros E. apply A1, Inj; [apply B; lia|apply B; lia|exact E].
    - rewrite <- Fe. exact A2. }
  pose proof (times_perfect n f Fsym Mx Ch') as TP.
  intros l1 x l2 y z E Hy Hz Nyz Exy Exz.
  assert (Ti : forall u, In u (x :: l2) -> exists k, k <= length l2 /\ v k = u).
  { intros u Hu. assert (X : rev l = (rev l2 ++ [x]) ++ rev l1) by (rewrite E, rev_app_distr; cbn [rev]; reflexivity).
    assert (Hu' : In u (rev l2 ++ [x])) by (apply in_app_iff; destruct Hu as [<-|Hu]; [right; left; reflexivity|left; apply in_rev in Hu; exact Hu]).
    apply (In_nth _ _ 0) in Hu' as (k & Hk & Ek). exists k. rewrite app_length, rev_length in Hk. cbn [length] in Hk. split; [lia|]. unfold v. rewrite X, app_nth1; [exact Ek|]. rewrite app_length, rev_length. cbn [length]. lia. }
  assert (Vx : v (length l2) = x).
  { unfold v. rewrite E, rev_app_distr. cbn [rev]. rewrite <- app_assoc, app_nth2; rewrite rev_length; [|lia]. rewrite Nat.sub_diag. reflexivity. }
  assert (Lx : length l2 < n) by (rewrite <- Ll, E, app_length; cbn [length]; lia).
  destruct (Ti y (or_intror Hy)) as (ky & Ly & Ey). destruct (Ti z (or_intror Hz)) as (kz & Lz & Ez).
  assert (Nx : ~ In x l2) by (rewrite E in ND; apply NoDup_remove_2 in ND; intros X; apply ND, in_app_iff; right; exact X).
  assert (ky <> length l2) by (intros ->; congruence). assert (kz <> length l2) by (intros ->; congruence). assert (ky <> kz) by congruence.
  rewrite <- Vx, <- Ey in Exy. rewrite <- Vx, <- Ez in Exz. apply Fe in Exy, Exz. rewrite <- Ey, <- Ez. apply Fe.
  destruct (Nat.lt_ge_cases ky kz) as [L|L]; [apply (TP ky kz (length l2)); auto; lia|]. rewrite Fsym. apply (TP kz ky (length l2)); auto; lia.
Qed.
End Loop.
