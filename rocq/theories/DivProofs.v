(** * Heap division terminates and computes F = Q*G + residuals. *)
From Coq Require Import Permutation Sorting.Sorted Ring.
From Verif Require Import Prelude Coef OrderSpec PairVecProofs Heap HeapProofs HeapMulProofs Div.

Section Aux2.
Context {A : Type}.
Lemma skipn_cons (l : list A) j x : j < length l -> skipn j l = nth j l x :: skipn (S j) l.
Proof.
  revert j; induction l as [|h t IH]; intros [|j] Hj; simpl in *; try lia; auto.
  rewrite (IH j) by lia. reflexivity.
Qed.
Lemma map_nth_seq (l : list A) x : map (fun i => nth i l x) (seq 0 (length l)) = l.
Proof.
  induction l as [|a l IH]; [reflexivity|]. cbn [length seq map]. f_equal.
  rewrite <- seq_shift, map_map. exact IH.
Qed.
Lemma NoDup_app2 (l1 l2 : list A) : NoDup l1 -> NoDup l2 -> (forall x, In x l1 -> In x l2 -> False) -> NoDup (l1 ++ l2).
Proof.
  induction l1 as [|a l1 IH]; simpl; intros H1 H2 H3; [exact H2|]. inversion H1; subst. constructor.
  - intros Hi. apply in_app_iff in Hi as [Hi|Hi]; [contradiction|]. apply (H3 a); auto.
  - apply IH; auto. intros x Hx. apply H3. auto.
Qed.
Lemma nodes_hd0 {M} (H : list (list (@node M))) s : 0 < length H -> nodes H (S s) = nth 0 H [] ++ nodes (tl H) s.
Proof. destruct H; simpl; intros; [lia|reflexivity]. Qed.
End Aux2.

Section DP.
Context {M C : Type} (okp okq : M -> Prop) (gt eqM : M -> M -> bool) (mmul : M -> M -> M) (K : coefs C).
Context (HO : order_on okp gt) (HOq : order_on okq gt)
        (HE : forall a b, eqM a b = true <-> a = b) (HK : ring_ok K).
Variable step : M -> C -> option (M * C) * list (M * C).
Variable v2 : list (M * C).
Variable d : M * C.
Let n2 := length v2.
Notation b t := (nth t v2 d).
Definition Pm (q : M) (t : nat) : M := mmul q (fst (nth t v2 d)).

Context (Hn2 : 0 < n2).
Context (Pok : forall q t, okq q -> t < n2 -> okp (Pm q t)).
Context (Prow : forall q t t', okq q -> t < t' -> t' < n2 -> gt (Pm q t) (Pm q t') = true).
Context (Pcol : forall q q' t, okq q -> okq q' -> gt q q' = true -> t < n2 -> gt (Pm q t) (Pm q' t) = true).
Context (Hstep : forall m k u, okp m -> k <> c0 K -> fst (step m k) = Some u ->
   okq (fst u) /\ Pm (fst u) 0 = m).
Context (Hwf : well_founded (fun a c => okp a /\ okp c /\ gt c a = true)).

Add Ring Kring : (ring_laws K HK).
Notation "x +c y" := (cadd K x y) (at level 50, left associativity).
Notation dn := (Node (fst d) 0 0).
Notation nodeM := (@node M).

(** ** Products still to be subtracted *)
Definition rowd (q : list (M * C)) (i t : nat) : list (M * C) :=
  map (fun u => (Pm (fst u) t, cmul K (snd u) (snd (nth t v2 d)))) (skipn i q).
Definition remd (q : list (M * C)) (l : list nodeM) : list (M * C) :=
  flat_map (fun n => rowd q (ni n) (nj n)) l.

Lemma rowd_cons q i t : i < length q ->
  rowd q i t = (Pm (fst (nth i q d)) t, cmul K (snd (nth i q d)) (snd (b t))) :: rowd q (S i) t.
Proof. intros Hi. unfold rowd. rewrite (skipn_cons q i d Hi). reflexivity. Qed.
Lemma rowd_end q i t : length q <= i -> rowd q i t = [].
Proof. intros Hj. unfold rowd. rewrite skipn_all2 by exact Hj. reflexivity. Qed.
Lemma rowd_snoc q u i t : i <= length q ->
  rowd (q ++ [u]) i t = rowd q i t ++ [(Pm (fst u) t, cmul K (snd u) (snd (b t)))].
Proof.
  intros Hi. unfold rowd. rewrite skipn_app, map_app. replace (i - length q) with 0 by lia. reflexivity.
Qed.
Lemma remd_app q l1 l2 : remd q (l1 ++ l2) = remd q l1 ++ remd q l2.
Proof. apply flat_map_app. Qed.
Lemma remd_perm q l1 l2 : Permutation l1 l2 -> Permutation (remd q l1) (remd q l2).
Proof. apply Permutation_flat_map. Qed.

(** ** Structural invariant: [L] are the nodes in heap and lin *)
Definition dnode_ok (q : list (M * C)) (n : nodeM) : Prop :=
  1 <= nj n /\ nj n < n2 /\ ni n < length q /\ nm n = Pm (fst (nth (ni n) q d)) (nj n).

Record dinv (q : list (M * C)) (L : list nodeM) (park : list (option nat)) (reset : nat) : Prop := {
  di_len : length park = n2 - 1;
  di_nodup : NoDup (map nj L);
  di_cnt : reset + length L = n2 - 1;
  di_node : Forall (dnode_ok q) L;
  di_in : forall t, 1 <= t -> t < n2 -> In t (map nj L) -> nth (t - 1) park None = None;
  di_out : forall t, 1 <= t -> t < n2 -> ~ In t (map nj L) -> nth (t - 1) park None = Some (length q);
}.

Lemma dinv_perm q L L' park reset : Permutation L L' -> dinv q L park reset -> dinv q L' park reset.
Proof.
  intros HP []. assert (HPm : Permutation (map nj L) (map nj L')) by (apply Permutation_map, HP).
  split.
  - assumption.
  - eapply Permutation_NoDup; eassumption.
  - rewrite <- (Permutation_length HP). assumption.
  - rewrite <- HP. assumption.
  - intros t H1 H2 H3. apply di_in0; auto. rewrite HPm. exact H3.
  - intros t H1 H2 H3. apply di_out0; auto. rewrite HPm. exact H3.
Qed.

Lemma dnode_okp q n : all_ok okq q -> dnode_ok q n -> okp (nm n).
Proof.
  intros Hq (H1 & H2 & H3 & ->). apply Pok; [|exact H2].
  unfold all_ok in Hq. rewrite Forall_forall in Hq. apply Hq, nth_In, H3.
Qed.

(** Parked nodes have been through the last quotient term at [m] or above. *)
Definition high (q : list (M * C)) (L : list nodeM) (m : M) : Prop :=
  forall t, 1 <= t -> t < n2 -> ~ In t (map nj L) -> 0 < length q ->
    gt m (Pm (fst (nth (length q - 1) q d)) t) = false.

Lemma high_perm q L L' m : Permutation L L' -> high q L m -> high q L' m.
Proof.
  intros HP Hh t H1 H2 H3 H4. apply Hh; auto.
  rewrite (Permutation_map nj HP). exact H3.
Qed.

Lemma dchain_ok q (c : list nodeM) : forall R m k lin park reset,
  all_ok okq q -> desc gt q -> okp m ->
  dinv q (c ++ R ++ lin) park reset -> high q (c ++ R ++ lin) m ->
  Forall (fun n => nm n = m) c -> Forall (fun n => gt m (nm n) = true) lin ->
  exists k' lin' park' reset',
    dchain mmul K v2 q c k lin park reset = Ok (k', lin', park', reset') /\
    dinv q (R ++ lin') park' reset' /\ high q (R ++ lin') m /\
    Forall (fun n => gt m (nm n) = true) lin' /\
    forall phi : M -> bool,
      csum K phi (remd q (c ++ lin)) +c (if phi m then k' else c0 K)
      = csum K phi (remd q lin') +c (if phi m then k else c0 K).
Proof.
  induction c as [|n c IH]; intros R m k lin park reset Hq Hdq Hm I Hh Hc Hl.
  - exists k, lin, park, reset. split; [reflexivity|]. split; [exact I|]. split; [exact Hh|].
    split; [exact Hl|]. intros phi. reflexivity.
  - inversion Hc as [|? ? Hnm Hc']; subst x l.
    pose proof (di_node _ _ _ _ I) as Hall. cbn [app] in Hall.
    inversion Hall as [|? ? (Hn1 & Hn2' & Hn3 & Hn4) Hall']; subst x l.
    pose proof (di_cnt _ _ _ _ I) as Hcnt. cbn [app length] in Hcnt. rewrite !app_length in Hcnt.
    pose proof (di_nodup _ _ _ _ I) as Hnd. cbn [app map] in Hnd.
    inversion Hnd as [|? ? Hnot Hnd']; subst x l.
    cbn [dchain]. rewrite (aget_nth q (ni n) d Hn3), (aget_nth v2 (nj n) d Hn2'). cbn [obind].
    set (k1 := csub K k _).
    destruct (Nat.eqb_spec (S (ni n)) (length q)) as [El|El]; cbn [negb].
    + (* parked *)
      rewrite aset_ok by (rewrite (di_len _ _ _ _ I); lia). cbn [obind].
      destruct (IH R m k1 lin (lset park (nj n - 1) (Some (S (ni n)))) (S reset)) as (k' & lin' & park' & reset' & E & I' & Hh' & Hl' & Hcs); auto.
      * split.
        -- rewrite length_lset. apply (di_len _ _ _ _ I).
        -- exact Hnd'.
        -- rewrite !app_length. lia.
        -- exact Hall'.
        -- intros t Ht1 Ht2 Hin. assert (t <> nj n) by (intros ->; contradiction).
           rewrite nth_lset_neq by lia. apply (di_in _ _ _ _ I); auto. right. exact Hin.
        -- intros t Ht1 Ht2 Hin. destruct (Nat.eq_dec t (nj n)) as [->|Hne].
           ++ rewrite nth_lset_eq by (rewrite (di_len _ _ _ _ I); lia). rewrite El. reflexivity.
           ++ rewrite nth_lset_neq by lia. apply (di_out _ _ _ _ I); auto. intros [e|e]; [congruence|contradiction].
      * intros t Ht1 Ht2 Hin Hq0. destruct (Nat.eq_dec t (nj n)) as [->|Hne].
        -- replace (length q - 1) with (ni n) by lia. rewrite <- Hn4, Hnm. apply (gt_irrefl okp gt HO), Hm.
        -- apply Hh; auto. intros [e|e]; [congruence|contradiction].
      * exists k', lin', park', reset'. split; [exact E|]. split; [exact I'|]. split; [exact Hh'|].
        split; [exact Hl'|]. intros phi. specialize (Hcs phi).
        cbn [app remd flat_map]. rewrite (rowd_cons q (ni n) (nj n) Hn3), <- Hn4, Hnm.
        rewrite (rowd_end q (S (ni n))) by lia. cbn [app csum].
        fold (remd q (c ++ lin)).
        transitivity ((if phi m then cmul K (snd (nth (ni n) q d)) (snd (b (nj n))) else c0 K) +c
           (csum K phi (remd q (c ++ lin)) +c (if phi m then k' else c0 K))); [destruct (phi m); ring|].
        rewrite Hcs. unfold k1. destruct (phi m); ring.
    + rewrite (aget_nth q (S (ni n)) d) by lia. cbn [obind]. unfold dlin_push.
      fold n2. destruct (Nat.ltb_spec (length lin) (n2 - 1)) as [_|]; [|lia]. cbn [obind].
      set (n' := Node _ _ _). fold (Pm (fst (nth (S (ni n)) q d)) (nj n)) in n'.
      assert (PP : Permutation (c ++ R ++ n' :: lin) (n' :: c ++ R ++ lin)).
      { transitivity ((c ++ R) ++ n' :: lin); [rewrite <- app_assoc; reflexivity|].
        transitivity (n' :: (c ++ R) ++ lin); [symmetry; apply Permutation_middle|].
        rewrite <- app_assoc. reflexivity. }
      assert (I2 : dinv q (n' :: c ++ R ++ lin) park reset).
      { destruct I as [J1 J2 J3 J4 J5 J6]. split; auto.
        - constructor; [|exact Hall']. unfold n', dnode_ok. cbn. repeat split; lia. }
      assert (Hg : gt m (nm n') = true).
      { unfold n'. cbn. rewrite <- Hnm, Hn4. apply Pcol; [| | |exact Hn2'].
        - unfold all_ok in Hq. rewrite Forall_forall in Hq. apply Hq, nth_In. lia.
        - unfold all_ok in Hq. rewrite Forall_forall in Hq. apply Hq, nth_In. lia.
        - apply desc_nth; [exact Hdq|lia|lia]. }
      destruct (IH R m k1 (n' :: lin) park reset) as (k' & lin' & park' & reset' & E & I' & Hh' & Hl' & Hcs); auto.
      * eapply dinv_perm; [symmetry; exact PP|exact I2].
      * eapply high_perm; [symmetry; exact PP|exact Hh].
      * exists k', lin', park', reset'. split; [exact E|]. split; [exact I'|]. split; [exact Hh'|].
        split; [exact Hl'|]. intros phi. specialize (Hcs phi).
        cbn [app remd flat_map]. rewrite (rowd_cons q (ni n) (nj n) Hn3), <- Hn4, Hnm.
        cbn [app csum].
        change (flat_map (fun n0 => rowd q (ni n0) (nj n0)) (c ++ lin)) with (remd q (c ++ lin)).
        rewrite remd_app in Hcs. cbn [remd flat_map] in Hcs.
        change (flat_map (fun n0 => rowd q (ni n0) (nj n0)) lin) with (remd q lin) in Hcs.
        change (flat_map (fun n0 => rowd q (ni n0) (nj n0)) c) with (remd q c) in Hcs.
        unfold n' in Hcs. cbn [ni nj] in Hcs. rewrite !(csum_app K HK) in Hcs.
        assert (G : csum K phi (rowd q (S (ni n)) (nj n) ++ remd q (c ++ lin)) +c (if phi m then k' else c0 K)
              = csum K phi (remd q lin') +c (if phi m then k1 else c0 K)).
        { rewrite <- Hcs, remd_app, !(csum_app K HK). ring. }
        transitivity ((if phi m then cmul K (snd (nth (ni n) q d)) (snd (b (nj n))) else c0 K) +c
           (csum K phi (rowd q (S (ni n)) (nj n) ++ remd q (c ++ lin)) +c (if phi m then k' else c0 K)));
           [destruct (phi m); ring|].
        rewrite G. unfold k1. destruct (phi m); ring.
Qed.

Lemma drounds_ok (fuel : nat) : forall q H hs m k lin park reset,
  hs < fuel -> all_ok okq q -> desc gt q -> okp m ->
  heap_ok okp gt dn H hs -> dinv q (nodes H hs ++ lin) park reset -> high q (nodes H hs ++ lin) m ->
  (forall n, In n (nodes H hs) -> kge gt m (nm n)) ->
  Forall (fun n => gt m (nm n) = true) lin ->
  exists H' hs' k' lin' park' reset',
    drounds gt eqM mmul K v2 fuel q H hs m k lin park reset = Ok (H', hs', k', lin', park', reset') /\
    length H' = length H /\ heap_ok okp gt dn H' hs' /\
    dinv q (nodes H' hs' ++ lin') park' reset' /\ high q (nodes H' hs' ++ lin') m /\
    Forall (fun n => gt m (nm n) = true) (nodes H' hs' ++ lin') /\
    forall phi : M -> bool,
      csum K phi (remd q (nodes H hs ++ lin)) +c (if phi m then k' else c0 K)
      = csum K phi (remd q (nodes H' hs' ++ lin')) +c (if phi m then k else c0 K).
Proof.
  induction fuel as [|f IH]; intros q H hs m k lin park reset Hf Hq Hdq Hm Hok I Hh Hmax Hl; [lia|].
  pose proof Hok as (Hlen & Hs & He).
  cbn [drounds]. destruct (Nat.ltb_spec 0 hs) as [Hhs|Hhs].
  2:{ assert (hs = 0) as -> by lia. exists H, 0, k, lin, park, reset. repeat (split; [first [reflexivity|assumption]|]).
      intros phi. ring. }
  assert (S0 : slot_ok okp (nth 0 H [])) by (apply Hs; lia).
  rewrite (hkey_ok okp dn H 0) by (try lia; assumption). cbn [obind].
  destruct (eqM (key dn H 0) m) eqn:Em.
  - apply HE in Em. rewrite (aget_nth H 0 []) by lia. cbn [obind].
    destruct hs as [|s]; [lia|].
    set (c := nth 0 H []) in *. set (R := nodes (tl H) s).
    assert (En : nodes H (S s) = c ++ R) by (apply nodes_hd0; lia).
    rewrite En, <- app_assoc in I, Hh.
    assert (Hc : Forall (fun n => nm n = m) c).
    { apply Forall_forall. intros n Hn. rewrite <- Em. apply (slot_key_all okp); assumption. }
    destruct (dchain_ok q c R m k lin park reset Hq Hdq Hm I Hh Hc Hl)
      as (k1 & lin1 & park1 & reset1 & E1 & I1 & Hh1 & Hl1 & Hcs1).
    rewrite E1. cbn [obind]. rewrite aset_ok by lia. cbn [obind].
    destruct (vhc_extract_ok okp gt eqM HO HE dn (lset H 0 []) s) as (H2 & E2 & L2 & Hok2 & P2 & K2).
    { rewrite length_lset. lia. }
    { intros j Hj0 Hj. rewrite nth_lset_neq by lia. apply Hs. lia. }
    { intros j Hj0 Hj Hp. unfold key. rewrite !nth_lset_neq by lia. apply He; lia. }
    rewrite length_lset in L2. rewrite E2. cbn [obind].
    assert (En2 : Permutation (nodes H2 s) R).
    { unfold R, nodes. apply concat_perm. rewrite P2. destruct H; reflexivity. }
    assert (PR : Permutation (R ++ lin1) (nodes H2 s ++ lin1)).
    { apply Permutation_app_tail. symmetry. exact En2. }
    destruct (IH q H2 s m k1 lin1 park1 reset1) as (H' & hs' & k' & lin' & park' & reset' & E & L' & Hok' & I' & Hh' & Hl' & Hcs');
      auto; try lia.
    + eapply dinv_perm; [exact PR|exact I1].
    + eapply high_perm; [exact PR|exact Hh1].
    + intros n Hn. apply Hmax. rewrite En. apply in_or_app. right. rewrite <- En2. exact Hn.
    + exists H', hs', k', lin', park', reset'. split; [exact E|]. split; [lia|]. split; [exact Hok'|].
      split; [exact I'|]. split; [exact Hh'|]. split; [exact Hl'|]. intros phi.
      specialize (Hcs' phi). specialize (Hcs1 phi).
      rewrite remd_app, (csum_app K HK) in Hcs'.
      rewrite (csum_Permutation K HK phi _ _ (remd_perm q _ _ En2)) in Hcs'.
      rewrite En, !remd_app, !(csum_app K HK). rewrite !remd_app, !(csum_app K HK) in Hcs1.
      rewrite remd_app, (csum_app K HK) in Hcs'.
      set (A := csum K phi (remd q c)) in *. set (B := csum K phi (remd q R)) in *.
      set (D := csum K phi (remd q lin)) in *. set (F := csum K phi (remd q lin1)) in *.
      set (G := csum K phi (remd q (nodes H' hs'))) in *. set (J := csum K phi (remd q lin')) in *.
      set (x := if phi m then k else c0 K) in *. set (x1 := if phi m then k1 else c0 K) in *.
      set (x' := if phi m then k' else c0 K) in *.
      transitivity ((A +c D +c x1) +c (csub K (B +c F +c x') (F +c x1))); [ring|].
      rewrite Hcs1, Hcs'. ring.
  - exists H, hs, k, lin, park, reset. split; [reflexivity|]. split; [reflexivity|]. split; [exact Hok|].
    split; [exact I|]. split; [exact Hh|]. split; [|intros; ring].
    apply Forall_app. split; [|exact Hl]. apply Forall_forall. intros n Hn.
    assert (Okk : okp (key dn H 0)) by (apply slot_key; assumption).
    assert (Hroot2 : kge gt m (key dn H 0)).
    { assert (Hin0 : exists n0, In n0 (nodes H hs) /\ nm n0 = key dn H 0).
      { unfold key. destruct (nth 0 H []) as [|n0 r] eqn:E0; [contradiction|].
        exists n0. split; [|reflexivity]. destruct hs; [lia|]. rewrite nodes_hd0, E0 by lia. left. reflexivity. }
      destruct Hin0 as (n0 & Hn0 & <-). apply Hmax, Hn0. }
    apply (gt_kge_trans okp gt HO m (key dn H 0)); [exact Hm|exact Okk|apply (nodes_ok okp gt dn H hs); assumption| |].
    + apply (kge_neq_gt okp gt HO); auto. intros e. rewrite e in Em. rewrite (proj2 (HE _ _) eq_refl) in Em. discriminate.
    + apply (nodes_root okp gt HO dn H hs n Hok Hn).
Qed.

(** At the end of a round the parked nodes are a prefix. *)
Lemma parked_prefix q L park reset m :
  all_ok okq q -> desc gt q -> okp m -> dinv q L park reset -> high q L m ->
  Forall (fun n => gt m (nm n) = true) L ->
  forall t, 1 <= t -> t < n2 -> (In t (map nj L) <-> reset < t).
Proof.
  intros Hq Hdq Hm I Hh Hl.
  assert (Up : forall t t', 1 <= t -> t <= t' -> t' < n2 -> In t (map nj L) -> In t' (map nj L)).
  { intros t t' H1 H2 H3 Hin. destruct (In_dec Nat.eq_dec t' (map nj L)) as [|Hn]; [assumption|exfalso].
    assert (t < t') by (destruct (Nat.eq_dec t t'); [subst; contradiction|lia]).
    apply in_map_iff in Hin as (n & Hnj & Hn'). subst t.
    pose proof (di_node _ _ _ _ I) as Hall. rewrite Forall_forall in Hall, Hl.
    destruct (Hall n Hn') as (N1 & N2 & N3 & N4). specialize (Hl n Hn').
    specialize (Hh t' ltac:(lia) H3 Hn ltac:(lia)).
    set (ql := nth (length q - 1) q d) in *.
    unfold all_ok in Hq. rewrite Forall_forall in Hq.
    assert (Okl : okq (fst ql)) by (apply Hq, nth_In; lia).
    assert (Okn : okq (fst (nth (ni n) q d))) by (apply Hq, nth_In; lia).
    assert (G1 : gt (Pm (fst ql) (nj n)) (Pm (fst ql) t') = true) by (apply Prow; auto; lia).
    assert (G2 : gt m (Pm (fst ql) (nj n)) = true).
    { destruct (Nat.eq_dec (ni n) (length q - 1)) as [e|e].
      - unfold ql. rewrite <- e, <- N4. exact Hl.
      - apply (gt_trans okp gt HO _ (nm n)); [exact Hm| |apply Pok; auto|exact Hl|].
        + rewrite N4. apply Pok; auto.
        + rewrite N4. apply Pcol; auto. apply desc_nth; [exact Hdq|lia|lia]. }
    rewrite (gt_trans okp gt HO m (Pm (fst ql) (nj n)) (Pm (fst ql) t')) in Hh; auto; try discriminate.
    all: apply Pok; auto; lia. }
  pose proof (di_cnt _ _ _ _ I) as Hc. pose proof (di_nodup _ _ _ _ I) as Hnd.
  intros t H1 H2. split; intros H3.
  - assert (Hi : incl (seq t (n2 - t)) (map nj L)).
    { intros x Hx. apply in_seq in Hx. apply (Up t x); auto; lia. }
    apply NoDup_incl_length in Hi; [|apply seq_NoDup]. rewrite seq_length, map_length in Hi. lia.
  - destruct (In_dec Nat.eq_dec t (map nj L)) as [|Hn]; [assumption|exfalso].
    assert (Hi : incl (map nj L) (seq (S t) (n2 - 1 - t))).
    { intros x Hx. apply in_seq. destruct (Nat.le_gt_cases x t) as [Hle|Hgt].
      - exfalso. apply Hn. apply (Up x t); auto.
        apply in_map_iff in Hx as (n & <- & Hn'). pose proof (di_node _ _ _ _ I) as Hall.
        rewrite Forall_forall in Hall. apply (Hall n Hn').
      - assert (x < n2); [|lia]. apply in_map_iff in Hx as (n & <- & Hn').
        pose proof (di_node _ _ _ _ I) as Hall. rewrite Forall_forall in Hall. apply (Hall n Hn'). }
    apply NoDup_incl_length in Hi; [|exact Hnd]. rewrite seq_length, map_length in Hi. lia.
Qed.

Definition fresh_node (u : M) (j t : nat) : nodeM := Node (Pm u t) j t.

Lemma unpark_ok q u reset : forall park,
  length park = n2 - 1 -> reset <= n2 - 1 ->
  (forall t, 1 <= t -> t <= reset -> nth (t - 1) park None = Some (length q)) ->
  exists park', unpark mmul v2 (q ++ [u]) park reset
     = Ok (map (fresh_node (fst u) (length q)) (rev (seq 1 reset)), park') /\
    length park' = n2 - 1 /\
    (forall t, 1 <= t -> t <= reset -> nth (t - 1) park' None = None) /\
    (forall t, reset < t -> nth (t - 1) park' None = nth (t - 1) park None).
Proof.
  induction reset as [|t0 IH]; intros park Hlen Hr Hp.
  - exists park. split; [reflexivity|]. split; [exact Hlen|]. split; [intros; lia|reflexivity].
  - cbn [unpark]. rewrite (aget_nth park t0 None) by lia. cbn [obind].
    pose proof (Hp (S t0) ltac:(lia) ltac:(lia)) as E0. replace (S t0 - 1) with t0 in E0 by lia. rewrite E0.
    rewrite (aget_nth (q ++ [u]) (length q) d) by (rewrite app_length; simpl; lia). cbn [obind].
    rewrite nth_middle. rewrite (aget_nth v2 (S t0) d) by (fold n2; lia). cbn [obind].
    rewrite aset_ok by lia. cbn [obind].
    destruct (IH (lset park t0 None)) as (park' & E & L' & H1 & H2).
    + rewrite length_lset. exact Hlen.
    + lia.
    + intros t Ht1 Ht2. rewrite nth_lset_neq by lia. apply Hp; lia.
    + rewrite E. cbn [obind]. exists park'. split.
      * rewrite seq_S, rev_app_distr. reflexivity.
      * split; [exact L'|]. split.
        -- intros t Ht1 Ht2. destruct (Nat.eq_dec t (S t0)) as [->|]; [|apply H1; lia].
           rewrite H2 by lia. replace (S t0 - 1) with t0 by lia. apply nth_lset_eq. lia.
        -- intros t Ht. rewrite H2 by lia. apply nth_lset_neq. lia.
Qed.

(** ** The trace of non-zero accumulated terms *)
Definition tq (tr : list (M * C)) : list (M * C) :=
  flat_map (fun t => match fst (step (fst t) (snd t)) with Some u => [u] | None => [] end) tr.
Definition trem (tr : list (M * C)) : list (M * C) := flat_map (fun t => snd (step (fst t) (snd t))) tr.
Definition resid (t : M * C) : M * C :=
  match fst (step (fst t) (snd t)) with
  | Some u => (fst t, csub K (snd t) (cmul K (snd u) (snd (nth 0 v2 d))))
  | None => t
  end.
Definition prods (q : list (M * C)) : list (M * C) :=
  flat_map (fun t => map (fun u => (mmul (fst t) (fst u), cmul K (snd t) (snd u))) v2) q.
Lemma prods_products q : prods q = products mmul K q v2.
Proof. reflexivity. Qed.

Record sinv (F : list (M * C)) (lo : M -> Prop) (st : @dstate M C) (tr : list (M * C)) : Prop := {
  si_H : length (dH st) = n2 - 1;
  si_heap : heap_ok okp gt dn (dH st) (dhs st);
  si_inv : dinv (dq st) (nodes (dH st) (dhs st)) (dpark st) (dreset st);
  si_lo : Forall (fun n => lo (nm n)) (nodes (dH st) (dhs st));
  si_high : forall t, 1 <= t -> t < n2 -> ~ In t (map nj (nodes (dH st) (dhs st))) -> 0 < length (dq st) ->
     ~ lo (Pm (fst (nth (length (dq st) - 1) (dq st) d)) t);
  si_qok : all_ok okq (dq st);
  si_qd : desc gt (dq st);
  si_qlo : Forall (fun u => ~ lo (Pm (fst u) 0)) (dq st);
  si_rok : all_ok okp (drest st);
  si_rd : desc gt (drest st);
  si_rlo : Forall (fun u => lo (fst u)) (drest st);
  si_q : dq st = tq tr;
  si_r : dr st = trem tr;
  si_tok : all_ok okp tr;
  si_td : desc gt tr;
  si_tnz : nonzero K tr;
  si_tlo : Forall (fun u => ~ lo (fst u)) tr;
  si_sum : forall phi, csum K phi F +c csum K phi (remd (dq st) (nodes (dH st) (dhs st)))
     = csum K phi (drest st) +c csum K phi (map resid tr) +c csum K phi (prods (dq st));
}.

Definition lo_down (lo : M -> Prop) : Prop := forall x y, okp x -> okp y -> lo x -> gt x y = true -> lo y.

Lemma tq_snoc tr t : tq (tr ++ [t]) = tq tr ++ match fst (step (fst t) (snd t)) with Some u => [u] | None => [] end.
Proof. unfold tq. rewrite flat_map_app. simpl. rewrite app_nil_r. reflexivity. Qed.
Lemma trem_snoc tr t : trem (tr ++ [t]) = trem tr ++ snd (step (fst t) (snd t)).
Proof. unfold trem. rewrite flat_map_app. simpl. rewrite app_nil_r. reflexivity. Qed.
Lemma prods_snoc q u : prods (q ++ [u]) = prods q ++ map (fun w => (mmul (fst u) (fst w), cmul K (snd u) (snd w))) v2.
Proof. unfold prods. rewrite flat_map_app. simpl. rewrite app_nil_r. reflexivity. Qed.

Lemma next_term_ok F lo st tr :
  sinv F lo st tr -> lo_down lo -> (dhs st <> 0 \/ drest st <> []) ->
  exists m k0 rest, next_term gt K (dH st) (dhs st) (drest st) = Ok (m, k0, rest) /\
    okp m /\ lo m /\
    (forall n, In n (nodes (dH st) (dhs st)) -> kge gt m (nm n)) /\
    all_ok okp rest /\ desc gt rest /\ Forall (fun u => gt m (fst u) = true) rest /\
    (forall phi, csum K phi (drest st) = csum K phi rest +c (if phi m then k0 else c0 K)).
Proof.
  intros I Hlo Hne. destruct st as [H hs park reset rest q r]. cbn in *.
  pose proof (si_heap _ _ _ _ I) as Hok. cbn in Hok. pose proof Hok as (Hlen & Hs & He).
  pose proof (si_rok _ _ _ _ I) as Rok. pose proof (si_rd _ _ _ _ I) as Rd. pose proof (si_rlo _ _ _ _ I) as Rlo.
  cbn in Rok, Rd, Rlo.
  assert (Hroot : forall n, In n (nodes H hs) -> kge gt (key dn H 0) (nm n)) by (intros n; apply (nodes_root okp gt HO dn H hs n Hok)).
  assert (Hk : hs <> 0 -> okp (key dn H 0) /\ lo (key dn H 0) /\ hkey H 0 = Ok (key dn H 0)).
  { intros Hhs. assert (S0 : slot_ok okp (nth 0 H [])) by (apply Hs; lia).
    split; [apply slot_key, S0|]. split; [|apply (hkey_ok okp); [lia|assumption]].
    pose proof (si_lo _ _ _ _ I) as Hl. cbn [dH dhs] in Hl. rewrite Forall_forall in Hl.
    unfold key. destruct (nth 0 H []) as [|n0 r0] eqn:E0; [contradiction|]. apply Hl.
    destruct hs; [lia|]. rewrite nodes_hd0, E0 by lia. left. reflexivity. }
  assert (Hnone : hs = 0 -> forall n, In n (nodes H hs) -> False) by (intros ->; intros n []).
  unfold next_term. destruct rest as [|[m0 k0] rest].
  - destruct (Nat.eq_dec hs 0) as [|Hhs]; [destruct Hne; congruence|].
    destruct (Hk Hhs) as (K1 & K2 & K3). rewrite K3. cbn [obind].
    exists (key dn H 0), (c0 K), []. split; [reflexivity|]. split; [exact K1|]. split; [exact K2|].
    split; [exact Hroot|]. split; [constructor|]. split; [constructor|]. split; [constructor|].
    intros phi. cbn. destruct (phi _); ring.
  - apply (desc_cons gt) in Rd as [Rd1 Rd2]. cbn in Rd2.
    unfold all_ok in Rok. apply Forall_cons_iff in Rok as [Rok1 Rok2]. cbn in Rok1.
    apply Forall_cons_iff in Rlo as [Rlo1 Rlo2]. cbn in Rlo1.
    assert (G : forall phi, csum K phi ((m0, k0) :: rest) = csum K phi rest +c (if phi m0 then k0 else c0 K))
      by (intros phi; cbn; destruct (phi m0); ring).
    destruct (Nat.eqb_spec hs 0) as [Hhs|Hhs].
    + exists m0, k0, rest. split; [reflexivity|]. split; [exact Rok1|]. split; [exact Rlo1|].
      split; [intros n Hn; exfalso; eapply Hnone; eassumption|].
      split; [exact Rok2|]. split; [exact Rd1|]. split; [exact Rd2|exact G].
    + destruct (Hk Hhs) as (K1 & K2 & K3). rewrite K3. cbn [obind].
      destruct (gt (key dn H 0) m0) eqn:Eg.
      * exists (key dn H 0), (c0 K), ((m0, k0) :: rest). split; [reflexivity|]. split; [exact K1|]. split; [exact K2|].
        split; [exact Hroot|]. split; [constructor; assumption|]. split; [apply desc_cons; auto|]. split.
        -- constructor; [exact Eg|]. apply (Forall_gt_trans okp gt HO _ m0); assumption.
        -- intros phi. destruct (phi (key dn H 0)); ring.
      * exists m0, k0, rest. split; [reflexivity|]. split; [exact Rok1|]. split; [exact Rlo1|].
        split; [|split; [exact Rok2|split; [exact Rd1|split; [exact Rd2|exact G]]]].
        intros n Hn. apply (kge_trans okp gt HO _ (key dn H 0));
          [exact Rok1|exact K1|apply (nodes_ok okp gt dn H hs n Hok Hn)|exact Eg|apply Hroot, Hn].
Qed.

Lemma csum_snoc phi (l : list (M * C)) t : csum K phi (l ++ [t]) = csum K phi l +c (if phi (fst t) then snd t else c0 K).
Proof. rewrite (csum_app K HK). destruct t as [a c]. cbn. destruct (phi a); ring. Qed.

(** Rows for all divisor terms but the first: live nodes and re-inserted nodes together. *)
Lemma rems_push q u L ns phi :
  Forall (fun n => ni n <= length q) L ->
  Permutation (map nj (L ++ ns)) (seq 1 (n2 - 1)) ->
  (forall n, In n ns -> ni n = length q) ->
  csum K phi (remd (q ++ [u]) (L ++ ns)) +c (if phi (Pm (fst u) 0) then cmul K (snd u) (snd (b 0)) else c0 K)
  = csum K phi (remd q L) +c csum K phi (map (fun w => (mmul (fst u) (fst w), cmul K (snd u) (snd w))) v2).
Proof.
  intros HL HP Hns.
  assert (E1 : csum K phi (remd (q ++ [u]) (L ++ ns))
     = csum K phi (remd q L) +c csum K phi (map (fun t => (Pm (fst u) t, cmul K (snd u) (snd (b t)))) (map nj (L ++ ns)))).
  { rewrite remd_app, (csum_app K HK), map_app, map_app, (csum_app K HK).
    assert (G1 : csum K phi (remd (q ++ [u]) L) = csum K phi (remd q L)
         +c csum K phi (map (fun t => (Pm (fst u) t, cmul K (snd u) (snd (b t)))) (map nj L))).
    { clear HP Hns. induction L as [|n L IH]; [cbn; ring|]. inversion HL; subst.
      cbn [remd flat_map map]. rewrite rowd_snoc by assumption.
      change (flat_map (fun n0 => rowd (q ++ [u]) (ni n0) (nj n0)) L) with (remd (q ++ [u]) L).
      change (flat_map (fun n0 => rowd q (ni n0) (nj n0)) L) with (remd q L).
      rewrite !(csum_app K HK), IH by assumption. cbn [csum]. destruct (phi _); ring. }
    assert (G2 : csum K phi (remd (q ++ [u]) ns) =
         csum K phi (map (fun t => (Pm (fst u) t, cmul K (snd u) (snd (b t)))) (map nj ns))).
    { clear HP. induction ns as [|n ns IH]; [reflexivity|].
      cbn [remd flat_map map]. rewrite rowd_snoc by (rewrite Hns by (left; reflexivity); lia).
      rewrite Hns by (left; reflexivity). rewrite rowd_end by lia.
      change (flat_map (fun n0 => rowd (q ++ [u]) (ni n0) (nj n0)) ns) with (remd (q ++ [u]) ns).
      cbn [app csum]. rewrite IH by (intros; apply Hns; right; assumption). reflexivity. }
    rewrite G1, G2. ring. }
  rewrite E1, (csum_Permutation K HK phi _ _ (Permutation_map _ HP)).
  assert (E2 : map (fun w => (mmul (fst u) (fst w), cmul K (snd u) (snd w))) v2
     = map (fun t => (Pm (fst u) t, cmul K (snd u) (snd (b t)))) (seq 0 n2)).
  { unfold n2, Pm. rewrite <- (map_nth_seq v2 d) at 1. rewrite map_map. reflexivity. }
  rewrite E2. replace n2 with (S (n2 - 1)) at 2 by lia. cbn [seq map csum]. destruct (phi _); ring.
Qed.

Lemma diter_ok F lo st tr :
  sinv F lo st tr -> lo_down lo -> (dhs st <> 0 \/ drest st <> []) ->
  exists m st' tr', diter gt eqM mmul K step v2 st = Ok st' /\ okp m /\ lo m /\ sinv F (fun x => gt m x = true) st' tr'.
Proof.
  intros I Hlo Hne.
  destruct (next_term_ok F lo st tr I Hlo Hne) as (m & k0 & rest & En & Hm & Hlm & Hmax & Rok & Rd & Rlo & Hcs0).
  pose proof (si_qok _ _ _ _ I) as Hqok. pose proof (si_qd _ _ _ _ I) as Hqd.
  pose proof (si_H _ _ _ _ I) as HH. pose proof (si_heap _ _ _ _ I) as Hok.
  pose proof (si_inv _ _ _ _ I) as Hinv.
  assert (Hnlo : forall x, okp x -> ~ lo x -> gt m x = false).
  { intros x Hx Hn. destruct (gt m x) eqn:E; [|reflexivity]. exfalso. apply Hn. apply (Hlo m); assumption. }
  assert (Okr : forall t, t < n2 -> 0 < length (dq st) -> okp (Pm (fst (nth (length (dq st) - 1) (dq st) d)) t)).
  { intros t Ht Hl. apply Pok; [|exact Ht]. unfold all_ok in Hqok. rewrite Forall_forall in Hqok.
    apply Hqok, nth_In. lia. }
  assert (Hhigh : high (dq st) (nodes (dH st) (dhs st) ++ []) m).
  { rewrite app_nil_r. intros t H1 H2 H3 H4. apply Hnlo; [apply Okr; assumption|].
    apply (si_high _ _ _ _ I t H1 H2 H3 H4). }
  unfold diter. rewrite En. cbn [obind].
  destruct (drounds_ok (S (length v2)) (dq st) (dH st) (dhs st) m k0 [] (dpark st) (dreset st))
    as (H1 & hs1 & k & lin & park1 & reset1 & E1 & L1 & Hok1 & I1 & Hh1 & Hl1 & Hcs1); auto.
  { destruct Hok as (Hl & _). fold n2. lia. }
  { rewrite app_nil_r. exact Hinv. }
  rewrite app_nil_r in Hcs1. rewrite E1. cbn [obind].
  pose proof (di_cnt _ _ _ _ I1) as Hcnt1. rewrite app_length in Hcnt1.
  pose proof (nodes_length okp gt dn H1 hs1 Hok1) as Hnl1.
  pose proof (di_node _ _ _ _ I1) as Hn1.
  assert (Hokn : Forall (fun n => okp (nm n)) (nodes H1 hs1 ++ lin)).
  { eapply Forall_impl; [|exact Hn1]. intros n Hn. apply (dnode_okp (dq st)); assumption. }
  apply Forall_app in Hokn as [Hokn1 Hokl].
  (* facts about the trace *)
  assert (Ttok : all_ok okp tr) by apply (si_tok _ _ _ _ I).
  assert (Tgt : Forall (fun t : M * C => gt (fst t) m = true) tr).
  { apply Forall_forall. intros t Ht. pose proof (si_tlo _ _ _ _ I) as Tl. rewrite Forall_forall in Tl.
    unfold all_ok in Ttok. rewrite Forall_forall in Ttok. specialize (Tl t Ht). specialize (Ttok t Ht).
    pose proof (Hnlo _ Ttok Tl) as G. destruct (gt_total okp gt HO (fst t) m Ttok Hm) as [e|[e|e]]; [|exact e|congruence].
    exfalso. apply Tl. rewrite e. exact Hlm. }
  assert (Tnlo : Forall (fun t : M * C => gt m (fst t) <> true) tr).
  { apply Forall_forall. intros t Ht. rewrite Forall_forall in Tgt. unfold all_ok in Ttok. rewrite Forall_forall in Ttok.
    rewrite (gt_asym okp gt HO (fst t) m); auto. }
  assert (Qnlo : Forall (fun u : M * C => gt m (Pm (fst u) 0) <> true) (dq st)).
  { pose proof (si_qlo _ _ _ _ I) as Ql. rewrite Forall_forall in Ql |- *. intros u Hu.
    rewrite Hnlo; [discriminate| |apply Ql, Hu]. apply Pok; [|exact Hn2].
    unfold all_ok in Hqok. rewrite Forall_forall in Hqok. apply Hqok, Hu. }
  assert (Hsum : forall phi, csum K phi F +c csum K phi (remd (dq st) (nodes H1 hs1 ++ lin))
     = csum K phi rest +c (if phi m then k else c0 K) +c csum K phi (map resid tr) +c csum K phi (prods (dq st))).
  { intros phi. pose proof (si_sum _ _ _ _ I phi) as Hs. rewrite (Hcs0 phi) in Hs. specialize (Hcs1 phi).
    set (X := csum K phi (remd (dq st) (nodes (dH st) (dhs st)))) in *.
    set (Y := csum K phi (remd (dq st) (nodes H1 hs1 ++ lin))) in *.
    set (x := if phi m then k else c0 K) in *. set (x0 := if phi m then k0 else c0 K) in *.
    transitivity (csub K ((csum K phi F +c X) +c (Y +c x0)) (X +c x0)); [ring|].
    rewrite Hs, <- Hcs1. ring. }
  (* the two ways without a new quotient term *)
  assert (Stay : forall tr', dq st = tq tr' -> all_ok okp tr' -> desc gt tr' -> nonzero K tr' ->
     Forall (fun t : M * C => gt m (fst t) <> true) tr' ->
     (forall phi, csum K phi (map resid tr') = csum K phi (map resid tr) +c (if phi m then k else c0 K)) ->
     exists H3 hs3, insert_all gt eqM H1 hs1 lin = Ok (H3, hs3) /\ sinv F (fun x => gt m x = true) (DState H3 hs3 park1 reset1 rest (dq st) (trem tr')) tr').
  { intros tr' Eq Tok' Td' Tnz' Tlo' Hres.
    destruct (insert_all_ok okp gt eqM HO HE dn lin H1 hs1 Hok1 ltac:(lia) Hokl)
      as (H3 & hs3 & E3 & L3 & Hok3 & B3 & P3 & K3).
    exists H3, hs3. split; [exact E3|].
    assert (Perm : Permutation (nodes H1 hs1 ++ lin) (nodes H3 hs3)).
    { rewrite P3. apply Permutation_app_comm. }
    split; cbn [dH dhs dpark dreset drest dq dr]; auto.
    - lia.
    - eapply dinv_perm; eassumption.
    - rewrite <- Perm. exact Hl1.
    - intros t T1 T2 T3 T4. rewrite (high_perm _ _ _ _ Perm Hh1 t T1 T2 T3 T4). discriminate.
    - intros phi. rewrite <- (csum_Permutation K HK phi _ _ (remd_perm (dq st) _ _ Perm)).
      rewrite Hsum, Hres. ring. }
  destruct (is0_spec K HK k) as [Ek|Ek].
  - destruct (Stay tr) as (H3 & hs3 & E3 & I3); auto.
    + apply (si_q _ _ _ _ I).
    + apply (si_td _ _ _ _ I).
    + apply (si_tnz _ _ _ _ I).
    + intros phi. rewrite Ek. destruct (phi m); ring.
    + rewrite E3. cbn [obind]. rewrite (si_r _ _ _ _ I). eauto 8.
  - destruct (step m k) as [oq rr] eqn:Es.
    assert (Td' : desc gt (tr ++ [(m, k)])) by (apply desc_snoc; [apply (si_td _ _ _ _ I)|exact Tgt]).
    assert (Tok' : all_ok okp (tr ++ [(m, k)])) by (apply Forall_app; split; [exact Ttok|constructor; [exact Hm|constructor]]).
    assert (Tnz' : nonzero K (tr ++ [(m, k)])).
    { apply Forall_app. split; [apply (si_tnz _ _ _ _ I)|constructor; [exact Ek|constructor]]. }
    assert (Tlo' : Forall (fun t : M * C => gt m (fst t) <> true) (tr ++ [(m, k)])).
    { apply Forall_app. split; [exact Tnlo|constructor; [|constructor]]. cbn. rewrite (gt_irrefl okp gt HO m Hm). discriminate. }
    assert (Er' : dr st ++ rr = trem (tr ++ [(m, k)])).
    { rewrite trem_snoc. cbn [fst snd]. rewrite Es, (si_r _ _ _ _ I). reflexivity. }
    destruct oq as [u|].
    + (* a new quotient term *)
      destruct (Hstep m k u Hm Ek) as [Hu Hum]; [rewrite Es; reflexivity|].
      pose proof (parked_prefix _ _ _ _ _ Hqok Hqd Hm I1 Hh1 Hl1) as Hpre.
      destruct (unpark_ok (dq st) u reset1 park1) as (park2 & E2 & L2 & Hp2a & Hp2b).
      { apply (di_len _ _ _ _ I1). }
      { lia. }
      { intros t T1 T2. apply (di_out _ _ _ _ I1); [exact T1|lia|]. rewrite Hpre by lia. lia. }
      rewrite E2. cbn [obind].
      set (ns := map (fresh_node (fst u) (length (dq st))) (rev (seq 1 reset1))) in *.
      assert (Nlen : length ns = reset1) by (unfold ns; rewrite map_length, rev_length, seq_length; reflexivity).
      assert (Nin : forall n, In n ns -> exists t, 1 <= t /\ t <= reset1 /\ n = fresh_node (fst u) (length (dq st)) t).
      { intros n Hn. unfold ns in Hn. apply in_map_iff in Hn as (t & <- & Ht). apply in_rev in Ht. apply in_seq in Ht.
        exists t. split; [lia|]. split; [lia|reflexivity]. }
      assert (Nok : Forall (fun n => okp (nm n)) ns).
      { apply Forall_forall. intros n Hn. destruct (Nin n Hn) as (t & T1 & T2 & ->). cbn. apply Pok; [exact Hu|lia]. }
      assert (Nlo : Forall (fun n => gt m (nm n) = true) ns).
      { apply Forall_forall. intros n Hn. destruct (Nin n Hn) as (t & T1 & T2 & ->). cbn. rewrite <- Hum.
        apply Prow; [exact Hu|lia|lia]. }
      assert (Nnj : map nj ns = rev (seq 1 reset1)).
      { unfold ns. rewrite map_map. cbn. apply map_id. }
      destruct (insert_all_ok okp gt eqM HO HE dn ns H1 hs1 Hok1 ltac:(lia) Nok)
        as (H2 & hs2 & E3 & L3 & Hok2 & B2 & P2 & K2).
      rewrite E3. cbn [obind].
      destruct (insert_all_ok okp gt eqM HO HE dn lin H2 hs2 Hok2 ltac:(lia) Hokl)
        as (H3 & hs3 & E4 & L4 & Hok3 & B3 & P3 & K3).
      rewrite E4. cbn [obind].
      assert (Perm : Permutation ((nodes H1 hs1 ++ lin) ++ ns) (nodes H3 hs3)).
      { rewrite P3, P2. rewrite <- app_assoc.
        transitivity (nodes H1 hs1 ++ (ns ++ lin)); [apply Permutation_app_head, Permutation_app_comm|].
        rewrite app_assoc. transitivity ((ns ++ nodes H1 hs1) ++ lin); [apply Permutation_app_tail, Permutation_app_comm|].
        apply Permutation_app_comm. }
      set (q' := dq st ++ [u]).
      assert (Lq' : length q' = S (length (dq st))) by (unfold q'; rewrite app_length; simpl; lia).
      assert (Pseq : Permutation (map nj ((nodes H1 hs1 ++ lin) ++ ns)) (seq 1 (n2 - 1))).
      { rewrite map_app. apply NoDup_Permutation_bis.
        - apply NoDup_app2.
          + apply (di_nodup _ _ _ _ I1).
          + rewrite Nnj. apply NoDup_rev, seq_NoDup.
          + intros t T1 T2. rewrite Nnj in T2. apply in_rev, in_seq in T2.
            apply (Hpre t ltac:(lia) ltac:(lia)) in T1. lia.
        - rewrite seq_length, app_length, !map_length, app_length, Nlen. lia.
        - intros t Ht. apply in_app_iff in Ht as [Ht|Ht].
          + apply in_map_iff in Ht as (n & <- & Hn). rewrite Forall_forall in Hn1.
            destruct (Hn1 n Hn) as (A1 & A2 & _). apply in_seq. lia.
          + rewrite Nnj in Ht. apply in_rev, in_seq in Ht. apply in_seq. lia. }
      assert (Hall : forall t, 1 <= t -> t < n2 -> In t (map nj (nodes H3 hs3))).
      { intros t T1 T2. apply (Permutation_in _ (Permutation_map nj Perm)).
        apply (Permutation_in _ (Permutation_sym Pseq)). apply in_seq. lia. }
      exists m, (DState H3 hs3 park2 0 rest q' (dr st ++ rr)), (tr ++ [(m, k)]).
      split; [reflexivity|]. split; [exact Hm|]. split; [exact Hlm|].
      assert (Qgt : Forall (fun w : M * C => gt (fst w) (fst u) = true) (dq st)).
      { apply Forall_forall. intros w Hw. rewrite Forall_forall in Qnlo. specialize (Qnlo w Hw).
        assert (Hwq : okq (fst w)) by (unfold all_ok in Hqok; rewrite Forall_forall in Hqok; apply Hqok, Hw).
        destruct (gt_total okq gt HOq (fst w) (fst u) Hwq Hu) as [e|[e|e]]; [|exact e|].
        - exfalso. pose proof (si_qlo _ _ _ _ I) as Ql. rewrite Forall_forall in Ql. apply (Ql w Hw).
          rewrite e, Hum. exact Hlm.
        - exfalso. apply Qnlo. rewrite <- Hum. apply Pcol; assumption. }
      split; cbn [dH dhs dpark dreset drest dq dr]; auto.
      * lia.
      * split.
        -- exact L2.
        -- eapply Permutation_NoDup; [apply (Permutation_map nj Perm)|]. eapply Permutation_NoDup; [symmetry; exact Pseq|]. apply seq_NoDup.
        -- rewrite <- (Permutation_length Perm), !app_length, Nlen. lia.
        -- rewrite <- Perm. apply Forall_app. split.
           ++ eapply Forall_impl; [|exact Hn1]. intros n (A1 & A2 & A3 & A4). split; [exact A1|]. split; [exact A2|].
              split; [lia|]. rewrite A4. unfold q'. rewrite app_nth1 by lia. reflexivity.
           ++ apply Forall_forall. intros n Hn. destruct (Nin n Hn) as (t & T1 & T2 & ->).
              unfold dnode_ok, fresh_node. cbn. repeat split; try lia. unfold q'. rewrite nth_middle. reflexivity.
        -- intros t T1 T2 _. destruct (Nat.le_gt_cases t reset1) as [Hle|Hgt]; [apply Hp2a; lia|].
           rewrite Hp2b by lia. apply (di_in _ _ _ _ I1); auto. apply Hpre; auto.
        -- intros t T1 T2 T3. exfalso. apply T3, Hall; assumption.
      * rewrite <- Perm. apply Forall_app. split; assumption.
      * apply Forall_app. split; [exact Hqok|constructor; [exact Hu|constructor]].
      * apply desc_snoc; assumption.
      * apply Forall_app. split; [exact Qnlo|constructor; [|constructor]]. rewrite Hum.
        rewrite (gt_irrefl okp gt HO m Hm). discriminate.
      * rewrite tq_snoc. cbn [fst snd]. rewrite Es. cbn. unfold q'. rewrite (si_q _ _ _ _ I). reflexivity.
      * intros phi. rewrite <- (csum_Permutation K HK phi _ _ (remd_perm q' _ _ Perm)).
        assert (RP := rems_push (dq st) u (nodes H1 hs1 ++ lin) ns phi).
        rewrite Hum in RP. fold q' in RP. unfold q' at 2. rewrite prods_snoc, map_app. cbn [map].
        rewrite csum_snoc, (csum_app K HK).
        assert (Eres : resid (m, k) = (m, csub K k (cmul K (snd u) (snd (b 0))))).
        { unfold resid. cbn [fst snd]. rewrite Es. reflexivity. }
        rewrite Eres. cbn [fst snd].
        specialize (Hsum phi).
        set (A := csum K phi (map _ v2)) in *. set (x := cmul K (snd u) (snd (b 0))) in *.
        assert (RP' : csum K phi (remd q' ((nodes H1 hs1 ++ lin) ++ ns)) +c (if phi m then x else c0 K)
            = csum K phi (remd (dq st) (nodes H1 hs1 ++ lin)) +c A).
        { apply RP.
          - eapply Forall_impl; [|exact Hn1]. intros n (A1 & A2 & A3 & A4). lia.
          - exact Pseq.
          - intros n Hn. destruct (Nin n Hn) as (t & _ & _ & ->). reflexivity. }
        set (X := csum K phi (remd q' _)) in *. set (Y := csum K phi (remd (dq st) _)) in *.
        transitivity (csub K ((csum K phi F +c Y) +c (X +c (if phi m then x else c0 K))) (Y +c (if phi m then x else c0 K))); [ring|].
        rewrite Hsum, RP'. destruct (phi m); ring.
    + (* no new quotient term *)
      destruct (Stay (tr ++ [(m, k)])) as (H3 & hs3 & E3 & I3); auto.
      * rewrite tq_snoc. cbn [fst snd]. rewrite Es. cbn. rewrite app_nil_r. apply (si_q _ _ _ _ I).
      * intros phi. rewrite map_app. cbn [map]. rewrite csum_snoc.
        replace (resid (m, k)) with (m, k) by (unfold resid; cbn [fst snd]; rewrite Es; reflexivity). reflexivity.
      * rewrite E3. cbn [obind]. rewrite Er'. eauto 8.
Qed.

Definition dfin (F : list (M * C)) (tr : list (M * C)) : Prop :=
  all_ok okp tr /\ desc gt tr /\ nonzero K tr /\ all_ok okq (tq tr) /\ desc gt (tq tr) /\
  (forall phi, csum K phi F = csum K phi (map resid tr) +c csum K phi (prods (tq tr))).

Lemma dloop_ok F m : okp m -> forall st tr, sinv F (fun x => gt m x = true) st tr ->
  exists tr' fuel0, dfin F tr' /\
    forall fuel, fuel0 <= fuel -> dloop gt eqM mmul K step v2 fuel st = Ok (tq tr', trem tr').
Proof.
  induction m as [m IH] using (well_founded_induction Hwf). intros Hm st tr I.
  destruct ((Nat.eqb (dhs st) 0 && match drest st with [] => true | _ => false end)%bool) eqn:Ed.
  - exists tr, 1. apply andb_true_iff in Ed as [Ed1 Ed2]. split.
    + destruct I. split; [assumption|]. split; [assumption|]. split; [assumption|]. rewrite <- si_q0.
      split; [assumption|]. split; [assumption|]. intros phi. specialize (si_sum0 phi).
      apply Nat.eqb_eq in Ed1. rewrite Ed1 in si_sum0. destruct (drest st); [|discriminate].
      cbn [nodes firstn concat remd flat_map csum] in si_sum0.
      transitivity (csum K phi F +c c0 K); [ring|]. etransitivity; [exact si_sum0|]. ring.
    + intros fuel Hf. destruct fuel; [lia|]. cbn [dloop]. rewrite Ed1, Ed2. cbn. rewrite (si_q _ _ _ _ I), (si_r _ _ _ _ I). reflexivity.
  - destruct (diter_ok F _ st tr I) as (m' & st' & tr' & E & Hm' & Hlt & I').
    + intros x y Hx Hy H1 H2. apply (gt_trans okp gt HO m x y); assumption.
    + apply andb_false_iff in Ed as [Ed|Ed]; [left; apply Nat.eqb_neq, Ed|right]. intros e. rewrite e in Ed. discriminate.
    + destruct (IH m' ltac:(auto) Hm' st' tr' I') as (tr'' & fuel0 & Hf & Hl).
      exists tr'', (S fuel0). split; [exact Hf|]. intros fuel Hfu. destruct fuel as [|f]; [lia|].
      cbn [dloop]. rewrite Ed, E. cbn [obind]. apply Hl. lia.
Qed.

Theorem heap_div_ok (F : list (M * C)) : all_ok okp F -> desc gt F ->
  exists tr fuel0, dfin F tr /\
    forall fuel, fuel0 <= fuel -> heap_div gt eqM mmul K step v2 fuel F = Ok (tq tr, trem tr).
Proof.
  intros Fok Fd. unfold heap_div.
  assert (I : sinv F (fun _ => True) (dinit v2 F) []).
  { split; unfold dinit; cbn [dH dhs dpark dreset drest dq dr nodes firstn concat map]; auto.
    - rewrite repeat_length. reflexivity.
    - split; [lia|]. split; intros; lia.
    - split.
      + rewrite repeat_length. reflexivity.
      + constructor.
      + fold n2. cbn. lia.
      + constructor.
      + intros t _ _ [].
      + intros t T1 T2 _. fold n2. cbn [length].
        rewrite (nth_indep _ None (Some 0)) by (rewrite repeat_length; lia). apply nth_repeat.
    - cbn. intros; lia.
    - constructor.
    - constructor.
    - apply Forall_forall. auto.
    - constructor.
    - constructor.
    - constructor.
    - intros phi. cbn. ring. }
  destruct F as [|f F'].
  - exists [], 1. split.
    + repeat split; try constructor. intros phi. cbn. ring.
    + intros fuel Hf. destruct fuel; [lia|]. reflexivity.
  - destruct (diter_ok (f :: F') _ _ [] I) as (m & st' & tr' & E & Hm & _ & I').
    + intros x y. auto.
    + right. discriminate.
    + destruct (dloop_ok (f :: F') m Hm st' tr' I') as (tr & fuel0 & Hfin & Hl).
      exists tr, (S fuel0). split; [exact Hfin|]. intros fuel Hf. destruct fuel as [|fu]; [lia|].
      cbn [dloop]. replace (Nat.eqb (dhs (dinit v2 (f :: F'))) 0 && match drest (dinit v2 (f :: F')) with [] => true | _ => false end) with false
        by (cbn; reflexivity).
      rewrite E. cbn [obind]. apply Hl. lia.
Qed.
End DP.
