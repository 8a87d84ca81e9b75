(** * The chained heap is a correct priority queue. *)
From Coq Require Import Permutation Sorting.Sorted.
From Verif Require Import Prelude Coef OrderSpec PairVecProofs Heap.

(** ** Arrays *)
Section Arrays.
Context {A : Type}.
Lemma length_lset (l : list A) i x : length (lset l i x) = length l.
Proof. revert i; induction l as [|h t IH]; intros [|i]; simpl; auto. Qed.
Lemma nth_lset_eq (l : list A) i x d : i < length l -> nth i (lset l i x) d = x.
Proof. revert i; induction l as [|h t IH]; intros [|i]; simpl; intros; [lia|lia|auto|apply IH; lia]. Qed.
Lemma nth_lset_neq (l : list A) i j x d : i <> j -> nth j (lset l i x) d = nth j l d.
Proof.
  revert i j; induction l as [|h t IH]; intros [|i] [|j]; simpl; intros; auto; try lia.
Qed.
Lemma aget_nth (l : list A) i d : i < length l -> aget l i = Ok (nth i l d).
Proof. intros H. unfold aget. rewrite (nth_error_nth' l d H). reflexivity. Qed.
Lemma aset_ok (l : list A) i x : i < length l -> aset l i x = Ok (lset l i x).
Proof. intros H. unfold aset. destruct (Nat.ltb_spec i (length l)); [reflexivity|lia]. Qed.
Lemma lset_nth (l : list A) i d : lset l i (nth i l d) = l.
Proof. revert i; induction l as [|h t IH]; intros [|i]; simpl; auto. rewrite IH. reflexivity. Qed.
Lemma lset_lset (l : list A) i x y : lset (lset l i x) i y = lset l i y.
Proof. revert i; induction l as [|h t IH]; intros [|i]; simpl; auto. rewrite IH. reflexivity. Qed.
Lemma lset_comm (l : list A) i j x y : i <> j -> lset (lset l i x) j y = lset (lset l j y) i x.
Proof.
  revert i j; induction l as [|h t IH]; intros [|i] [|j]; simpl; intros; auto; try lia.
  rewrite IH by lia. reflexivity.
Qed.
Lemma lset_perm (l : list A) i x d : i < length l -> Permutation (nth i l d :: lset l i x) (x :: l).
Proof.
  revert i; induction l as [|h t IH]; intros [|i]; simpl; intros H; try lia.
  - apply perm_swap.
  - transitivity (h :: nth i t d :: lset t i x); [apply perm_swap|].
    transitivity (h :: x :: t); [|apply perm_swap]. constructor. apply IH. lia.
Qed.
Lemma firstn_lset (l : list A) n i x : i < n -> firstn n (lset l i x) = lset (firstn n l) i x.
Proof.
  revert n i; induction l as [|h t IH]; intros [|n] [|i]; simpl; intros; auto; try lia.
  rewrite IH by lia. reflexivity.
Qed.
Lemma firstn_lset_ge (l : list A) n i x : n <= i -> firstn n (lset l i x) = firstn n l.
Proof.
  revert n i; induction l as [|h t IH]; intros [|n] [|i]; simpl; intros; auto; try lia.
  rewrite IH by lia. reflexivity.
Qed.
Lemma nth_firstn (l : list A) n i d : i < n -> nth i (firstn n l) d = nth i l d.
Proof.
  revert n i; induction l as [|h t IH]; intros [|n] [|i]; simpl; intros; auto; try lia.
  apply IH. lia.
Qed.
Lemma firstn_S_nth (l : list A) n d : n < length l -> firstn (S n) l = firstn n l ++ [nth n l d].
Proof.
  revert n; induction l as [|h t IH]; intros [|n] H; simpl in *; try lia; auto.
  rewrite <- IH by lia. reflexivity.
Qed.
(** moving slot [j] into hole [i] and making [j] the hole *)
Lemma lset_move_perm (l : list A) n i j x d : i < n -> j < n -> n <= length l -> i <> j ->
  Permutation (firstn n (lset (lset l i (nth j l d)) j x)) (firstn n (lset l i x)).
Proof.
  intros Hi Hj Hn Hij.
  rewrite lset_comm, !firstn_lset by lia.
  set (f := firstn n l). assert (Hf : length f = n) by (apply firstn_length_le; lia).
  assert (Ej : nth j l d = nth j f d) by (symmetry; apply nth_firstn; lia). rewrite Ej.
  set (a := nth j f d). set (b := nth i f d).
  (* lset (lset f j x) i a  ~  lset f i x *)
  apply Permutation_cons_inv with (a := b).
  transitivity (a :: lset f j x).
  { replace b with (nth i (lset f j x) d) by (apply nth_lset_neq; lia).
    apply lset_perm. rewrite length_lset. lia. }
  transitivity (x :: f); [apply lset_perm; lia|].
  symmetry. apply lset_perm. lia.
Qed.
End Arrays.

Section HP.
Context {M : Type} (ok : M -> Prop) (gt eqM : M -> M -> bool).
Context (HO : order_on ok gt) (HE : forall a b, eqM a b = true <-> a = b).
Variable dn : @node M.

Notation nodeM := (@node M).
Notation chain := (list nodeM).

Definition key (H : list chain) (i : nat) : M :=
  match nth i H [] with [] => nm dn | n :: _ => nm n end.

(** [kge a b]: a is not smaller than b. *)
Definition kge (a b : M) : Prop := gt b a = false.

Lemma kge_refl a : ok a -> kge a a.
Proof. apply (gt_irrefl ok gt HO). Qed.
Lemma kge_trans a b c : ok a -> ok b -> ok c -> kge a b -> kge b c -> kge a c.
Proof.
  unfold kge. intros Ha Hb Hc H1 H2. destruct (gt c a) eqn:E; [|reflexivity].
  destruct (gt_total ok gt HO a b Ha Hb) as [->|[e|e]]; [congruence| |congruence].
  rewrite (gt_trans ok gt HO c a b Hc Ha Hb E e) in H2. discriminate.
Qed.
Lemma gt_kge a b : ok a -> ok b -> gt a b = true -> kge a b.
Proof. intros Ha Hb H. exact (gt_asym ok gt HO a b Ha Hb H). Qed.
Lemma kge_gt_trans a b c : ok a -> ok b -> ok c -> kge a b -> gt b c = true -> gt a c = true.
Proof.
  intros Ha Hb Hc H1 H2. unfold kge in H1.
  destruct (gt_total ok gt HO a b Ha Hb) as [->|[e|e]]; [exact H2| |congruence].
  exact (gt_trans ok gt HO a b c Ha Hb Hc e H2).
Qed.
Lemma gt_kge_trans a b c : ok a -> ok b -> ok c -> gt a b = true -> kge b c -> gt a c = true.
Proof.
  intros Ha Hb Hc H1 H2. unfold kge in H2.
  destruct (gt_total ok gt HO b c Hb Hc) as [<-|[e|e]]; [exact H1| |congruence].
  exact (gt_trans ok gt HO a b c Ha Hb Hc H1 e).
Qed.
Lemma kge_neq_gt a b : ok a -> ok b -> kge a b -> a <> b -> gt a b = true.
Proof.
  intros Ha Hb H Hn. unfold kge in H. destruct (gt_total ok gt HO a b Ha Hb) as [e|[e|e]]; congruence.
Qed.

(** A slot holds a non-null chain of nodes with one common, admissible monomial. *)
Definition slot_ok (c : chain) : Prop :=
  match c with [] => False | n :: r => ok (nm n) /\ Forall (fun n' => nm n' = nm n) r end.

Definition heap_ok (H : list chain) (hs : nat) : Prop :=
  hs <= length H /\
  (forall i, i < hs -> slot_ok (nth i H [])) /\
  (forall i, 0 < i -> i < hs -> kge (key H (parent i)) (key H i)).

(** All nodes in the live part of the heap. *)
Definition nodes (H : list chain) (hs : nat) : list nodeM := concat (firstn hs H).

Lemma slot_key H i : slot_ok (nth i H []) -> ok (key H i).
Proof. unfold key, slot_ok. destruct (nth i H []); tauto. Qed.
Lemma slot_key_all H i n : slot_ok (nth i H []) -> In n (nth i H []) -> nm n = key H i.
Proof.
  unfold key, slot_ok. destruct (nth i H []) as [|m r]; [tauto|]. intros [_ H2] [->|Hin]; [reflexivity|].
  rewrite Forall_forall in H2. apply H2, Hin.
Qed.
Lemma hkey_ok H i : i < length H -> slot_ok (nth i H []) -> hkey H i = Ok (key H i).
Proof.
  intros Hi Hs. unfold hkey. rewrite (aget_nth H i [] Hi). simpl. unfold key.
  destruct (nth i H []); [contradiction|reflexivity].
Qed.
Lemma key_lset_eq H i c : i < length H -> c <> [] ->
  key (lset H i c) i = match c with [] => nm dn | n :: _ => nm n end.
Proof. intros Hi Hc. unfold key. rewrite nth_lset_eq by assumption. reflexivity. Qed.
Lemma key_lset_neq H i j c : i <> j -> key (lset H i c) j = key H j.
Proof. intros Hij. unfold key. rewrite nth_lset_neq by assumption. reflexivity. Qed.
Lemma key_lset_slot H i j : i < length H -> key (lset H i (nth j H [])) i = key H j.
Proof. intros Hi. unfold key. rewrite nth_lset_eq by assumption. reflexivity. Qed.

Lemma parent_lt i : 0 < i -> parent i < i.
Proof. intros. unfold parent. pose proof (Nat.div_lt_upper_bound (i - 1) 2 i). lia. Qed.
Lemma parent_child p k : 0 < k -> parent k = p -> k = 2 * p + 1 \/ k = 2 * p + 2.
Proof.
  intros Hk <-. unfold parent.
  pose proof (Nat.div_mod (k - 1) 2 ltac:(lia)). pose proof (Nat.mod_upper_bound (k - 1) 2 ltac:(lia)). lia.
Qed.
Lemma parent_left i : parent (2 * i + 1) = i.
Proof. unfold parent. replace (2 * i + 1 - 1) with (i * 2) by lia. apply Nat.div_mul. lia. Qed.
Lemma parent_right i : parent (2 * i + 2) = i.
Proof.
  unfold parent. replace (2 * i + 2 - 1) with (1 + i * 2) by lia. rewrite Nat.div_add by lia. reflexivity.
Qed.

(** The heap order with a hole at [i] (slots below [n]). *)
Definition hole_ok (H : list chain) (i n : nat) : Prop :=
  n <= length H /\ i < n /\
  (forall k, k < n -> k <> i -> slot_ok (nth k H [])) /\
  (forall k, 0 < k -> k < n -> k <> i -> parent k <> i -> kge (key H (parent k)) (key H k)) /\
  (forall k, 0 < i -> 0 < k -> k < n -> parent k = i -> kge (key H (parent i)) (key H k)).

(** Filling the hole with a chain [c] whose monomial fits. *)
Lemma hole_fill H i n c x :
  hole_ok H i n -> slot_ok c -> (match c with [] => nm dn | m :: _ => nm m end) = x ->
  (0 < i -> kge (key H (parent i)) x) ->
  (forall k, 0 < k -> k < n -> parent k = i -> kge x (key H k)) ->
  heap_ok (lset H i c) n.
Proof.
  intros (Hn & Hi & Hs & He & Hc) Hc1 Hx Hp Hch. split; [rewrite length_lset; exact Hn|]. split.
  - intros k Hk. destruct (Nat.eq_dec i k) as [<-|Hik].
    + rewrite nth_lset_eq by lia. exact Hc1.
    + rewrite nth_lset_neq by assumption. apply Hs; lia.
  - intros k Hk0 Hk. assert (Hc2 : c <> []) by (intros ->; exact Hc1).
    pose proof (parent_lt k Hk0) as Hpk.
    destruct (Nat.eq_dec i k) as [<-|Hik].
    + rewrite key_lset_neq by lia. rewrite key_lset_eq by (try lia; assumption). rewrite Hx.
      apply Hp. exact Hk0.
    + rewrite (key_lset_neq H i k) by assumption.
      destruct (Nat.eq_dec i (parent k)) as [E|E].
      * rewrite <- E. rewrite key_lset_eq by (try lia; assumption). rewrite Hx.
        apply Hch; auto.
      * rewrite key_lset_neq by assumption. apply He; lia.
Qed.

(** Moving a hole down to child [j] (used by extraction). *)
Lemma hole_down H i j n : hole_ok H i n -> 0 < j -> j < n -> parent j = i ->
  (forall k, 0 < k -> k < n -> parent k = i -> kge (key H j) (key H k)) ->
  hole_ok (lset H i (nth j H [])) j n.
Proof.
  intros (Hn & Hi & Hs & He & Hc) Hj0 Hj Hpj Hmax.
  pose proof (parent_lt j Hj0) as Hlt.
  assert (Hij : i <> j) by lia.
  split; [rewrite length_lset; exact Hn|]. split; [exact Hj|]. split; [|split].
  - intros k Hk Hkj. destruct (Nat.eq_dec i k) as [<-|Hik].
    + rewrite nth_lset_eq by lia. apply Hs; lia.
    + rewrite nth_lset_neq by assumption. apply Hs; lia.
  - intros k Hk0 Hk Hkj Hpkj. pose proof (parent_lt k Hk0) as Hpk.
    destruct (Nat.eq_dec i k) as [<-|Hik].
    + rewrite key_lset_slot by lia. rewrite key_lset_neq by lia.
      apply Hc; try lia.
    + rewrite (key_lset_neq H i k) by assumption.
      destruct (Nat.eq_dec i (parent k)) as [E|E].
      * rewrite <- E. rewrite key_lset_slot by lia. apply Hmax; auto.
      * rewrite key_lset_neq by assumption. apply He; lia.
  - intros k _ Hk0 Hk Hpk. rewrite Hpj, key_lset_slot by lia.
    pose proof (parent_lt k Hk0).
    rewrite key_lset_neq by lia. rewrite <- Hpk. apply He; lia.
Qed.

(** Moving a hole up to its parent (used by insertion). *)
Lemma hole_up H i n : hole_ok H i n -> 0 < i ->
  hole_ok (lset H i (nth (parent i) H [])) (parent i) n.
Proof.
  intros (Hn & Hi & Hs & He & Hc) Hi0. pose proof (parent_lt i Hi0) as Hlt.
  split; [rewrite length_lset; exact Hn|]. split; [lia|]. split; [|split].
  - intros k Hk Hkp. destruct (Nat.eq_dec i k) as [<-|Hik].
    + rewrite nth_lset_eq by lia. apply Hs; lia.
    + rewrite nth_lset_neq by assumption. apply Hs; lia.
  - intros k Hk0 Hk Hkp Hpkp. pose proof (parent_lt k Hk0) as Hpk.
    destruct (Nat.eq_dec i k) as [<-|Hik]; [lia|].
    rewrite (key_lset_neq H i k) by assumption.
    destruct (Nat.eq_dec i (parent k)) as [E|E].
    + rewrite <- E. rewrite key_lset_slot by lia. apply Hc; auto.
    + rewrite key_lset_neq by assumption. apply He; lia.
  - intros k Hp0 Hk0 Hk Hpk. pose proof (parent_lt (parent i) Hp0) as Hpp.
    rewrite (key_lset_neq H i (parent (parent i))) by lia.
    assert (E1 : kge (key H (parent (parent i))) (key H (parent i))) by (apply He; lia).
    destruct (Nat.eq_dec i k) as [<-|Hik].
    + rewrite key_lset_slot by lia. exact E1.
    + rewrite key_lset_neq by assumption.
      eapply kge_trans; [| | |exact E1|].
      * apply slot_key, Hs; lia.
      * apply slot_key, Hs; lia.
      * apply slot_key, Hs; lia.
      * rewrite <- Hpk. apply He; lia.
Qed.

(** ** Extraction *)
Lemma extract_loop_ok fuel : forall H0 H s i,
  s < length H -> s < i + fuel ->
  hole_ok H i s -> slot_ok (nth s H []) ->
  (0 < i -> kge (key H (parent i)) (key H s)) ->
  H0 = nth s H [] ->
  exists H' i', extract_loop gt fuel H s i (2 * i + 1) = Ok (H', i') /\
    length H' = length H /\ i' < s /\ nth s H' [] = H0 /\
    heap_ok (lset H' i' H0) s /\
    Permutation (firstn s (lset H' i' H0)) (firstn s (lset H i H0)) /\
    (forall k, s < k -> nth k H' [] = nth k H []).
Proof.
  induction fuel as [|f IH]; intros H0 H s i Hlen Hfuel Hh Hss Hpx HH0.
  { destruct Hh as (_ & Hi & _). lia. }
  pose proof Hh as (Hn & Hi & Hs & He & Hc).
  cbn [extract_loop].
  assert (Kx : (match H0 with [] => nm dn | m :: _ => nm m end) = key H s).
  { unfold key. rewrite HH0. reflexivity. }
  assert (Kok : ok (key H s)) by (apply slot_key, Hss).
  destruct (Nat.ltb_spec (2 * i + 1) s) as [Hj|Hj].
  - assert (Hj1 : slot_ok (nth (2 * i + 1) H [])) by (apply Hs; lia).
    assert (Hj2 : slot_ok (nth (2 * i + 1 + 1) H [])).
    { destruct (Nat.eq_dec (2 * i + 1 + 1) s) as [->|]; [exact Hss|apply Hs; lia]. }
    rewrite (hkey_ok H (2 * i + 1)) by (try lia; assumption). cbn [obind].
    rewrite (hkey_ok H (2 * i + 1 + 1)) by (try lia; assumption). cbn [obind].
    set (j' := if gt (key H (2 * i + 1)) (key H (2 * i + 1 + 1)) then 2 * i + 1 else 2 * i + 1 + 1).
    assert (Hj' : j' = 2 * i + 1 \/ j' = 2 * i + 2).
    { unfold j'. destruct (gt _ _); lia. }
    assert (Hjs : slot_ok (nth j' H [])) by (unfold j'; destruct (gt _ _); assumption).
    assert (Hjp : parent j' = i).
    { destruct Hj' as [->| ->]; [apply parent_left|apply parent_right]. }
    assert (Hmax : forall k, 0 < k -> k < s -> parent k = i -> kge (key H j') (key H k)).
    { intros k Hk0 Hk Hpk. apply parent_child in Hpk; [|assumption].
      assert (Hk' : k = 2 * i + 1 \/ k = 2 * i + 1 + 1) by lia. clear Hpk.
      unfold j'. destruct (gt (key H (2 * i + 1)) (key H (2 * i + 1 + 1))) eqn:E; destruct Hk' as [->| ->].
      - apply kge_refl, slot_key; assumption.
      - apply gt_kge; [apply slot_key; assumption|apply slot_key; assumption|exact E].
      - exact E.
      - apply kge_refl, slot_key; assumption. }
    rewrite (hkey_ok H j') by (try lia; assumption). cbn [obind].
    rewrite (hkey_ok H s) by assumption. cbn [obind].
    destruct (gt (key H j') (key H s)) eqn:Eg.
    + assert (Hj's : j' < s).
      { destruct (Nat.eq_dec j' s) as [e|]; [|lia].
        rewrite e in Eg. rewrite (gt_irrefl ok gt HO _ Kok) in Eg. discriminate. }
      rewrite (aget_nth H j' []) by lia. cbn [obind].
      rewrite aset_ok by lia. cbn [obind].
      pose proof (hole_down H i j' s Hh ltac:(lia) Hj's Hjp Hmax) as Hh'.
      destruct (IH H0 (lset H i (nth j' H [])) s j') as (H' & i' & E & L & Li & Ns & Hok & HP & Hk).
      * rewrite length_lset; lia.
      * lia.
      * exact Hh'.
      * rewrite nth_lset_neq by lia. exact Hss.
      * intros _. rewrite Hjp, key_lset_slot by lia. rewrite key_lset_neq by lia.
        apply gt_kge; [apply slot_key; assumption|exact Kok|exact Eg].
      * rewrite nth_lset_neq by lia. exact HH0.
      * exists H', i'. split; [exact E|]. split; [rewrite L; apply length_lset|].
        split; [exact Li|]. split; [exact Ns|]. split; [exact Hok|]. split.
        -- rewrite HP. apply lset_move_perm; lia.
        -- intros k Hks. rewrite (Hk k Hks). apply nth_lset_neq. lia.
    + exists H, i. repeat split; try reflexivity; try lia.
      * symmetry; exact HH0.
      * rewrite length_lset; lia.
      * eapply hole_fill with (n := s); [exact Hh|rewrite HH0; exact Hss|exact Kx|exact Hpx|].
        intros k Hk0 Hk Hpk. eapply kge_trans; [exact Kok|apply (slot_key H j'), Hjs| | |apply Hmax; auto].
        -- apply slot_key, Hs; [exact Hk|]. pose proof (parent_lt k Hk0). lia.
        -- exact Eg.
      * eapply hole_fill with (n := s); [exact Hh|rewrite HH0; exact Hss|exact Kx|exact Hpx|].
        intros k Hk0 Hk Hpk. eapply kge_trans; [exact Kok|apply (slot_key H j'), Hjs| | |apply Hmax; auto].
        -- apply slot_key, Hs; [exact Hk|]. pose proof (parent_lt k Hk0). lia.
        -- exact Eg.
  - assert (HF : heap_ok (lset H i H0) s).
    { eapply hole_fill with (n := s); [exact Hh|rewrite HH0; exact Hss|exact Kx|exact Hpx|].
      intros k Hk0 Hk Hpk. apply parent_child in Hpk; [lia|assumption]. }
    exists H, i. split; [reflexivity|]. split; [reflexivity|]. split; [exact Hi|].
    split; [symmetry; exact HH0|]. split; [exact HF|]. split; [reflexivity|]. reflexivity.
Qed.

(** [vhc_extract] removes slot 0 (whatever it contains) and restores the heap. *)
Lemma vhc_extract_ok H s :
  s < length H ->
  (forall k, 0 < k -> k <= s -> slot_ok (nth k H [])) ->
  (forall k, 0 < k -> k <= s -> 0 < parent k -> kge (key H (parent k)) (key H k)) ->
  exists H', vhc_extract gt H (S s) = Ok (H', s) /\
    length H' = length H /\ heap_ok H' s /\
    Permutation (firstn s H') (firstn s (tl H)) /\
    (forall k, s < k -> nth k H' [] = nth k H []).
Proof.
  intros Hlen Hs He. unfold vhc_extract.
  destruct s as [|s'].
  - cbn [extract_loop]. change (1 <? 0) with false. cbn [obind].
    rewrite (aget_nth H 0 []) by lia. cbn [obind]. rewrite aset_ok by lia. cbn [obind].
    exists (lset H 0 (nth 0 H [])). split; [reflexivity|]. rewrite lset_nth.
    split; [reflexivity|]. split; [|split; [reflexivity|reflexivity]].
    split; [lia|]. split; [intros i Hi; lia|intros i Hi0 Hi; lia].
  - set (s := S s') in *.
    assert (Hh : hole_ok H 0 s).
    { split; [lia|]. split; [unfold s; lia|]. split; [|split].
      - intros k Hk Hk0. apply Hs; lia.
      - intros k Hk0 Hk _ Hpk. apply He; lia.
      - intros k H00. lia. }
    destruct (extract_loop_ok (S (S s)) (nth s H []) H s 0) as (H' & i' & E & L & Li & Ns & Hok & HP & Hk).
    + exact Hlen.
    + lia.
    + exact Hh.
    + apply Hs; unfold s; lia.
    + lia.
    + reflexivity.
    + change (2 * 0 + 1) with 1 in E. rewrite E. cbn [obind].
      rewrite (aget_nth H' s []) by lia. cbn [obind]. rewrite aset_ok by lia. cbn [obind].
      rewrite Ns. exists (lset H' i' (nth s H [])). split; [reflexivity|].
      split; [rewrite length_lset; exact L|]. split; [exact Hok|]. split.
      * rewrite HP. destruct H as [|h t]; [simpl in Hlen; lia|].
        cbn [lset tl]. unfold s. change (nth (S s') (h :: t) []) with (nth s' t []). rewrite firstn_cons.
        rewrite (firstn_S_nth t s' []) by (simpl in Hlen; lia).
        apply Permutation_cons_append.
      * intros k Hks. rewrite nth_lset_neq by lia. apply Hk, Hks.
Qed.

(** ** Insertion *)
Lemma root_max H hs i : heap_ok H hs -> i < hs -> kge (key H 0) (key H i).
Proof.
  intros (Hn & Hs & He). induction i as [i IH] using (well_founded_induction lt_wf). intros Hi.
  destruct (Nat.eq_dec i 0) as [->|Hi0]; [apply kge_refl, slot_key, Hs; lia|].
  pose proof (parent_lt i ltac:(lia)).
  eapply kge_trans; [| | |apply (IH (parent i)); lia|apply He; lia]; apply slot_key, Hs; lia.
Qed.

Lemma shift_root_ok fuel : forall H i n c x,
  i < fuel -> hole_ok H i n -> slot_ok c -> (match c with [] => nm dn | m :: _ => nm m end) = x ->
  (forall k, k < n -> k <> i -> gt x (key H k) = true) -> ok x ->
  exists H', shift_root fuel H i = Ok H' /\ length H' = length H /\ heap_ok (lset H' 0 c) n /\
    Permutation (firstn n (lset H' 0 c)) (firstn n (lset H i c)) /\
    (forall k, n <= k -> nth k H' [] = nth k H []).
Proof.
  induction fuel as [|f IH]; intros H i n c x Hf Hh Hc Hx Hgt Okx; [lia|].
  pose proof Hh as (Hn & Hi & Hs & He & Hcc).
  cbn [shift_root]. destruct (Nat.ltb_spec 0 i) as [Hi0|Hi0].
  - pose proof (parent_lt i Hi0) as Hp.
    rewrite (aget_nth H (parent i) []) by lia. cbn [obind]. rewrite aset_ok by lia. cbn [obind].
    destruct (IH (lset H i (nth (parent i) H [])) (parent i) n c x) as (H' & E & L & Hok & HP & Hk).
    + lia.
    + apply hole_up; assumption.
    + exact Hc.
    + exact Hx.
    + intros k Hkn Hkp. destruct (Nat.eq_dec i k) as [<-|Hik].
      * rewrite key_lset_slot by lia. apply Hgt; lia.
      * rewrite key_lset_neq by assumption. apply Hgt; lia.
    + exact Okx.
    + exists H'. split; [exact E|]. split; [rewrite L; apply length_lset|]. split; [exact Hok|].
      split; [rewrite HP; apply lset_move_perm; lia|].
      intros k Hkn. rewrite (Hk k Hkn). apply nth_lset_neq. lia.
  - assert (i = 0) as -> by lia.
    exists H. split; [reflexivity|]. split; [reflexivity|].
    split; [|split; [reflexivity|reflexivity]].
    eapply hole_fill; [exact Hh|exact Hc|exact Hx|lia|].
    intros k Hk0 Hk _. apply gt_kge; [exact Okx|apply slot_key, Hs; lia|apply Hgt; lia].
Qed.

(** the path walked by the search loop *)
Inductive upto (H : list chain) (x : M) : nat -> nat -> Prop :=
| upto_stop j : gt x (key H j) = false -> upto H x j j
| upto_step j i1 : gt x (key H j) = true -> 0 < j -> upto H x (parent j) i1 -> upto H x j i1.

Lemma upto_end H x j i1 : upto H x j i1 -> gt x (key H i1) = false /\ i1 <= j.
Proof.
  induction 1 as [j Hj|j i1 Hj H0 _ [IH1 IH2]]; [split; [assumption|lia]|].
  split; [assumption|]. pose proof (parent_lt j H0). lia.
Qed.
Lemma upto_ext H H' x j i1 : (forall k, k <= j -> key H' k = key H k) -> upto H x j i1 -> upto H' x j i1.
Proof.
  intros E U. induction U as [j Hj|j i1 Hj H0 U IH].
  - apply upto_stop. rewrite E by lia. exact Hj.
  - apply upto_step; [rewrite E by lia; exact Hj|exact H0|]. apply IH.
    intros k Hk. apply E. pose proof (parent_lt j H0). lia.
Qed.

Lemma search_up_ok fuel : forall H hs x j,
  j < fuel -> j < hs -> heap_ok H hs -> gt x (key H 0) = false ->
  exists i1, search_up gt fuel H x j = Ok i1 /\ upto H x j i1.
Proof.
  induction fuel as [|f IH]; intros H hs x j Hf Hj Hok H0; [lia|].
  pose proof Hok as (Hn & Hs & He).
  cbn [search_up]. rewrite (hkey_ok H j) by (try lia; apply Hs; lia). cbn [obind].
  destruct (gt x (key H j)) eqn:E.
  - destruct (Nat.eqb_spec j 0) as [->|Hj0]; [congruence|].
    pose proof (parent_lt j ltac:(lia)).
    destruct (IH H hs x (parent j)) as (i1 & E1 & U); [lia|lia|exact Hok|exact H0|].
    exists i1. split; [exact E1|]. apply upto_step; [exact E|lia|exact U].
  - exists j. split; [reflexivity|]. apply upto_stop, E.
Qed.

Lemma shift_to_ok fuel : forall H i i1 n c x,
  i < fuel -> 0 < i -> hole_ok H i n -> slot_ok c ->
  (match c with [] => nm dn | m :: _ => nm m end) = x -> ok x ->
  (forall k, 0 < k -> k < n -> parent k = i -> kge x (key H k)) ->
  upto H x (parent i) i1 ->
  exists H' i', shift_to fuel H i i1 = Ok (H', i') /\ length H' = length H /\ i' < n /\
    heap_ok (lset H' i' c) n /\
    Permutation (firstn n (lset H' i' c)) (firstn n (lset H i c)) /\
    (forall k, n <= k -> nth k H' [] = nth k H []).
Proof.
  induction fuel as [|f IH]; intros H i i1 n c x Hf Hi0 Hh Hc Hx Okx Hch U; [lia|].
  pose proof Hh as (Hn & Hi & Hs & He & Hcc). pose proof (parent_lt i Hi0) as Hp.
  cbn [shift_to]. destruct (Nat.eqb_spec i 0) as [|_]; [lia|].
  destruct (Nat.eqb_spec (parent i) i1) as [E|E].
  - exists H, i. split; [reflexivity|]. split; [reflexivity|]. split; [exact Hi|].
    split; [|split; [reflexivity|reflexivity]].
    eapply hole_fill; [exact Hh|exact Hc|exact Hx| |exact Hch].
    intros _. destruct (upto_end _ _ _ _ U) as [U1 _]. rewrite E. exact U1.
  - inversion U as [j Hj|j i1' Hj H0 U']; subst j; [congruence|]. subst i1'.
    rewrite (aget_nth H (parent i) []) by lia. cbn [obind]. rewrite aset_ok by lia. cbn [obind].
    destruct (IH (lset H i (nth (parent i) H [])) (parent i) i1 n c x) as (H' & i' & E1 & L & Li & Hok & HP & Hk).
    + lia.
    + exact H0.
    + apply hole_up; assumption.
    + exact Hc.
    + exact Hx.
    + exact Okx.
    + intros k Hk0 Hkn Hpk.
      assert (Okp : ok (key H (parent i))) by (apply slot_key, Hs; lia).
      destruct (Nat.eq_dec i k) as [<-|Hik].
      * rewrite key_lset_slot by lia. apply gt_kge; assumption.
      * pose proof (parent_lt k Hk0). rewrite key_lset_neq by assumption.
        eapply kge_trans; [exact Okx|exact Okp|apply slot_key, Hs; lia|apply gt_kge; assumption|].
        rewrite <- Hpk. apply He; lia.
    + eapply upto_ext; [|exact U']. intros k Hk. apply key_lset_neq.
      pose proof (parent_lt (parent i) H0). lia.
    + exists H', i'. split; [exact E1|]. split; [rewrite L; apply length_lset|]. split; [exact Li|].
      split; [exact Hok|]. split; [rewrite HP; apply lset_move_perm; lia|].
      intros k Hkn. rewrite (Hk k Hkn). apply nth_lset_neq. lia.
Qed.

Lemma concat_perm (l1 l2 : list chain) : Permutation l1 l2 -> Permutation (concat l1) (concat l2).
Proof.
  induction 1 as [|a l1 l2 _ IH|a b l|l1 l2 l3 _ IH1 _ IH2]; simpl.
  - constructor.
  - apply Permutation_app_head, IH.
  - rewrite !app_assoc. apply Permutation_app_tail, Permutation_app_comm.
  - etransitivity; eassumption.
Qed.

Lemma nodes_chain_cons H hs i n : i < hs -> hs <= length H ->
  Permutation (nodes (lset H i (n :: nth i H [])) hs) (n :: nodes H hs).
Proof.
  intros Hi Hl. unfold nodes. rewrite firstn_lset by assumption.
  set (f := firstn hs H). rewrite <- (nth_firstn H hs i []) by assumption. fold f.
  assert (Hf : i < length f) by (unfold f; rewrite firstn_length_le; lia).
  apply (Permutation_app_inv_l (nth i f [])).
  pose proof (concat_perm _ _ (lset_perm f i (n :: nth i f []) [] Hf)) as P. simpl in P.
  rewrite P. simpl. apply Permutation_middle.
Qed.

Lemma heap_ok_chain_cons H hs i n : heap_ok H hs -> i < hs -> nm n = key H i ->
  heap_ok (lset H i (n :: nth i H [])) hs.
Proof.
  intros (Hn & Hs & He) Hi Hk.
  assert (Kk : forall k, key (lset H i (n :: nth i H [])) k = key H k).
  { intros k. destruct (Nat.eq_dec i k) as [<-|Hik]; [|apply key_lset_neq, Hik].
    unfold key at 1. rewrite nth_lset_eq by lia. exact Hk. }
  split; [rewrite length_lset; exact Hn|]. split.
  - intros k Hkh. destruct (Nat.eq_dec i k) as [<-|Hik].
    + rewrite nth_lset_eq by lia. specialize (Hs i Hi). split.
      * rewrite Hk. apply slot_key, Hs.
      * apply Forall_forall. intros n' Hn'. rewrite Hk. apply slot_key_all; assumption.
    + rewrite nth_lset_neq by assumption. apply Hs, Hkh.
  - intros k Hk0 Hkh. rewrite !Kk. apply He; assumption.
Qed.

Lemma vhc_insert_ok H hs n :
  heap_ok H hs -> hs < length H -> ok (nm n) ->
  exists H' hs', vhc_insert gt eqM H hs n = Ok (H', hs') /\
    length H' = length H /\ heap_ok H' hs' /\ hs <= hs' <= S hs /\ 0 < hs' /\
    Permutation (nodes H' hs') (n :: nodes H hs) /\
    (forall k, S hs <= k -> nth k H' [] = nth k H []).
Proof.
  intros Hok Hlen Hn. pose proof Hok as (Hl & Hs & He).
  assert (Hslot : slot_ok [n]) by (split; [exact Hn|constructor]).
  unfold vhc_insert. destruct (Nat.eqb_spec hs 0) as [->|Hhs].
  { rewrite aset_ok by lia. cbn [obind]. exists (lset H 0 [n]), 1. split; [reflexivity|].
    split; [apply length_lset|]. split; [|split; [lia|split; [lia|split]]].
    - split; [rewrite length_lset; lia|]. split.
      + intros i Hi. assert (i = 0) as -> by lia. rewrite nth_lset_eq by lia. exact Hslot.
      + intros i Hi0 Hi. lia.
    - unfold nodes. rewrite firstn_lset by lia. destruct H as [|h t]; [simpl in Hlen; lia|]. reflexivity.
    - intros k Hk. apply nth_lset_neq. lia. }
  assert (S0 : slot_ok (nth 0 H [])) by (apply Hs; lia).
  rewrite (hkey_ok H 0) by (try lia; assumption). cbn [obind].
  destruct (eqM (nm n) (key H 0)) eqn:E0.
  { apply HE in E0. rewrite (aget_nth H 0 []) by lia. cbn [obind]. rewrite aset_ok by lia. cbn [obind].
    exists (lset H 0 (n :: nth 0 H [])), hs. split; [reflexivity|]. split; [apply length_lset|].
    split; [apply heap_ok_chain_cons; [assumption|lia|assumption]|]. split; [lia|]. split; [lia|].
    split; [apply nodes_chain_cons; lia|]. intros k Hk. apply nth_lset_neq. lia. }
  assert (Hhole : hole_ok H hs (S hs)).
  { split; [lia|]. split; [lia|]. split; [|split].
    - intros k Hk Hkh. apply Hs. lia.
    - intros k Hk0 Hk Hkh Hpk. apply He; lia.
    - intros k _ Hk0 Hk Hpk. apply parent_child in Hpk; [lia|assumption]. }
  assert (Hnodes : forall H' i, i <= hs -> length H' = length H ->
            Permutation (firstn (S hs) (lset H' i [n])) (firstn (S hs) (lset H hs [n])) ->
            Permutation (nodes (lset H' i [n]) (S hs)) (n :: nodes H hs)).
  { intros H' i Hi HL HP. unfold nodes. rewrite (concat_perm _ _ HP).
    rewrite firstn_lset by lia. rewrite (firstn_S_nth H hs []) by lia.
    set (f := firstn hs H). assert (Hf : length f = hs) by (unfold f; apply firstn_length_le; lia).
    assert (lset (f ++ [nth hs H []]) hs [n] = f ++ [[n]]) as ->.
    { rewrite <- Hf at 2. clear. induction f as [|a f IH]; simpl; [reflexivity|]. rewrite IH. reflexivity. }
    rewrite concat_app. simpl. rewrite Permutation_app_comm. reflexivity. }
  destruct (gt (nm n) (key H 0)) eqn:G0.
  { destruct (shift_root_ok (S hs) H hs (S hs) [n] (nm n)) as (H' & E & L & Hok' & HP & Hk).
    - lia.
    - exact Hhole.
    - exact Hslot.
    - reflexivity.
    - intros k Hk Hkh. eapply gt_kge_trans; [exact Hn| | |exact G0|apply (root_max H hs); [exact Hok|lia]];
        apply slot_key, Hs; lia.
    - exact Hn.
    - rewrite E. cbn [obind]. rewrite aset_ok by lia. cbn [obind].
      exists (lset H' 0 [n]), (S hs). split; [reflexivity|]. split; [rewrite length_lset; exact L|].
      split; [exact Hok'|]. split; [lia|]. split; [lia|]. split; [apply Hnodes; [lia|exact L|exact HP]|].
      intros k Hks. rewrite nth_lset_neq by lia. apply Hk. lia. }
  assert (Hp : (hs - 1) / 2 = parent hs) by reflexivity. rewrite Hp.
  pose proof (parent_lt hs ltac:(lia)) as Hpl.
  destruct (search_up_ok (S hs) H hs (nm n) (parent hs)) as (i1 & E1 & U);
    [lia|lia|exact Hok|exact G0|].
  rewrite E1. cbn [obind].
  destruct (upto_end _ _ _ _ U) as [Ui Ul].
  assert (S1 : slot_ok (nth i1 H [])) by (apply Hs; lia).
  rewrite (hkey_ok H i1) by (try lia; assumption). cbn [obind].
  destruct (eqM (nm n) (key H i1)) eqn:Ei.
  { apply HE in Ei. rewrite (aget_nth H i1 []) by lia. cbn [obind]. rewrite aset_ok by lia. cbn [obind].
    exists (lset H i1 (n :: nth i1 H [])), hs. split; [reflexivity|]. split; [apply length_lset|].
    split; [apply heap_ok_chain_cons; [assumption|lia|assumption]|]. split; [lia|]. split; [lia|].
    split; [apply nodes_chain_cons; lia|]. intros k Hk. apply nth_lset_neq. lia. }
  destruct (shift_to_ok (S hs) H hs i1 (S hs) [n] (nm n)) as (H' & i' & E & L & Li & Hok' & HP & Hk).
  - lia.
  - lia.
  - exact Hhole.
  - exact Hslot.
  - reflexivity.
  - exact Hn.
  - intros k Hk0 Hk Hpk. apply parent_child in Hpk; [lia|assumption].
  - exact U.
  - rewrite E. cbn [obind]. rewrite aset_ok by lia. cbn [obind].
    exists (lset H' i' [n]), (S hs). split; [reflexivity|]. split; [rewrite length_lset; exact L|].
    split; [exact Hok'|]. split; [lia|]. split; [lia|]. split; [apply Hnodes; [lia|exact L|exact HP]|].
    intros k Hks. rewrite nth_lset_neq by lia. apply Hk. lia.
Qed.

Lemma insert_all_ok lin : forall H hs,
  heap_ok H hs -> hs + length lin <= length H -> Forall (fun n => ok (nm n)) lin ->
  exists H' hs', insert_all gt eqM H hs lin = Ok (H', hs') /\
    length H' = length H /\ heap_ok H' hs' /\ hs <= hs' <= hs + length lin /\
    Permutation (nodes H' hs') (lin ++ nodes H hs) /\
    (forall k, hs + length lin <= k -> nth k H' [] = nth k H []).
Proof.
  induction lin as [|n lin IH]; intros H hs Hok Hlen Hl.
  - exists H, hs. cbn [insert_all length] in *. repeat split; try reflexivity; try lia; apply Hok.
  - inversion Hl as [|? ? Hn Hl']; subst. cbn [insert_all length] in *.
    destruct (vhc_insert_ok H hs n Hok ltac:(lia) Hn) as (H1 & hs1 & E1 & L1 & Hok1 & B1 & B1' & P1 & K1).
    rewrite E1. cbn [obind].
    destruct (IH H1 hs1 Hok1 ltac:(lia) Hl') as (H2 & hs2 & E2 & L2 & Hok2 & B2 & P2 & K2).
    exists H2, hs2. split; [exact E2|]. split; [congruence|]. split; [exact Hok2|]. split; [lia|]. split.
    + rewrite P2, P1. simpl. symmetry. apply Permutation_middle.
    + intros k Hk. rewrite K2 by lia. apply K1. lia.
Qed.

(** Every node of the heap carries the key of its slot, hence is below the root. *)
Lemma nodes_slot H hs n : heap_ok H hs -> In n (nodes H hs) ->
  exists i, i < hs /\ In n (nth i H []) /\ nm n = key H i.
Proof.
  intros (Hl & Hs & _) Hin. unfold nodes in Hin. apply in_concat in Hin as (c & Hc & Hn).
  apply (In_nth _ _ []) in Hc as (i & Hi & Hci).
  rewrite firstn_length_le in Hi by lia. rewrite nth_firstn in Hci by lia. subst c.
  exists i. split; [exact Hi|]. split; [exact Hn|]. apply slot_key_all; [apply Hs, Hi|exact Hn].
Qed.
Lemma nodes_root H hs n : heap_ok H hs -> In n (nodes H hs) -> kge (key H 0) (nm n).
Proof.
  intros Hok Hin. destruct (nodes_slot H hs n Hok Hin) as (i & Hi & _ & ->).
  apply (root_max H hs); assumption.
Qed.
Lemma nodes_ok H hs n : heap_ok H hs -> In n (nodes H hs) -> ok (nm n).
Proof.
  intros Hok Hin. destruct (nodes_slot H hs n Hok Hin) as (i & Hi & _ & ->).
  apply slot_key, Hok, Hi.
Qed.
Lemma nodes_length H hs : heap_ok H hs -> hs <= length (nodes H hs).
Proof.
  intros (Hl & Hs & _). unfold nodes.
  assert (G : forall l : list chain, (forall c, In c l -> c <> []) -> length l <= length (concat l)).
  { induction l as [|c l IH]; simpl; intros Hc; [lia|]. rewrite app_length.
    specialize (IH (fun c Hc' => Hc c (or_intror Hc'))).
    destruct c as [|x c]; [exfalso; apply (Hc []); [left|]; reflexivity|]. simpl. lia. }
  rewrite <- (firstn_length_le H Hl) at 1. apply G.
  intros c Hc. apply (In_nth _ _ []) in Hc as (i & Hi & Hci).
  rewrite firstn_length_le in Hi by lia. rewrite nth_firstn in Hci by lia. subst c.
  specialize (Hs i Hi). intros E. rewrite E in Hs. exact Hs.
Qed.
End HP.
