(** * MCS-M: the loop of __MCS_M (Graph.v, [mcsm_loop]). *)
From Coq Require Import Sorted Permutation.
From Verif Require Import Prelude Graph GraphMath GraphMcs.

(** l is a perfect elimination ordering of g: the neighbours of a vertex that come after it are pairwise joined *)
Definition perfect_order (g : list (list nat)) (l : list nat) : Prop :=
  forall l1 x l2 y z, l = l1 ++ x :: l2 -> In y l2 -> In z l2 -> y <> z -> edge g x y -> edge g x z -> edge g y z.

Section Loop.
Variables (rnd : nat -> nat -> bool) (g0 : list (list nat)).
Notation n := (length g0).
Notation E := (edge g0).
Hypothesis Sy0 : symmetric g0.
Record hist (k : nat) (v : nat -> nat) (w : nat -> nat -> nat) (Sb : nat -> nat -> bool) (g : list (list nat)) (num : nat -> bool) (l : list nat) : Prop := {
  h_v : forall k', k' < k -> unch n v k' (v k') /\ forall z, unch n v k' z -> w k' z <= w k' (v k');
  h_S : forall k' z, k' < k -> unch n v (S k') z -> (Sb k' z = true <-> via E (Slow n v w k' z) (v k') z);
  h_w : forall k' z, k' < k -> unch n v (S k') z -> w (S k') z = w k' z + (if Sb k' z then 1 else 0);
  h_num : forall z, num z = true <-> exists i, i < k /\ v i = z;
  h_l : l = rev (map v (seq 0 k));
  h_len : length g = n;
  h_wf : wf_adj g;
  h_g : forall a b, edge g a b <-> E a b \/ exists i, i < k /\ ((a = v i /\ unch n v (S i) b /\ Sb i b = true) \/ (b = v i /\ unch n v (S i) a /\ Sb i a = true)) }.

Lemma hist_nodup k v w Sb g num l : hist k v w Sb g num l -> NoDup (map v (seq 0 k)) /\ incl (map v (seq 0 k)) (seq 0 n).
Proof.
  intros H. split.
  - pose proof (h_v _ _ _ _ _ _ _ H) as Hv. clear H. induction k as [|k IH]; [constructor|]. rewrite seq_S, map_app. cbn [map Nat.add].
    apply (Permutation_NoDup (l := v k :: map v (seq 0 k))); [apply Permutation_cons_append|]. constructor.
    + intros X. apply in_map_iff in X as (i & Ei & Hi). apply in_seq in Hi. apply (proj2 (proj1 (Hv k ltac:(lia))) i); [lia|exact Ei].
    + apply IH. intros k' Hk. apply Hv. lia.
  - intros x Hx. apply in_map_iff in Hx as (i & <- & Hi). apply in_seq in Hi. apply in_seq. pose proof (proj1 (proj1 (h_v _ _ _ _ _ _ _ H i ltac:(lia)))). lia.
Qed.
Lemma hist_free k v w Sb g num l : hist k v w Sb g num l -> k < n -> exists z, z < n /\ num z = false.
Proof.
  intros H L. destruct (existsb (fun z => negb (num z)) (seq 0 n)) eqn:Ex.
  - apply existsb_exists in Ex as (z & Hz & Nz). apply in_seq in Hz. exists z. split; [lia|]. destruct (num z); [discriminate|reflexivity].
  - exfalso. assert (X : length (seq 0 n) <= length (map v (seq 0 k))).
    { apply NoDup_incl_length; [apply seq_NoDup|]. intros z Hz. destruct (num z) eqn:Nz.
      - apply (h_num _ _ _ _ _ _ _ H) in Nz as (i & Hi & <-). apply in_map, in_seq. lia.
      - assert (Y : existsb (fun z => negb (num z)) (seq 0 n) = true); [|congruence]. apply existsb_exists. exists z. rewrite Nz. auto. }
    rewrite map_length, !seq_length in X. lia.
Qed.
Lemma hist_full v w Sb g num l z : hist n v w Sb g num l -> ~ unch n v n z.
Proof.
  intros H [Lz Hz]. destruct (hist_nodup _ _ _ _ _ _ _ H) as [ND I].
  assert (X : incl (seq 0 n) (map v (seq 0 n))) by (apply NoDup_length_incl; [exact ND|rewrite map_length, seq_length; lia|exact I]).
  assert (Y : In z (map v (seq 0 n))) by (apply X, in_seq; lia). apply in_map_iff in Y as (i & Ei & Hi). apply in_seq in Hi. apply (Hz i); [lia|exact Ei].
Qed.
Lemma unch_fupd k v x k' z : k' <= k -> (unch n (fupd v k x) k' z <-> unch n v k' z).
Proof.
  intros L. unfold unch. split; intros [A B]; (split; [exact A|]); intros i Hi; specialize (B i Hi); rewrite fupd_other in * by lia; exact B.
Qed.
Lemma num_unch k v w Sb g num l z : hist k v w Sb g num l -> z < n -> (unch n v k z <-> num z = false).
Proof.
  intros H Lz. split.
  - intros [_ U]. destruct (num z) eqn:Nz; [|reflexivity]. apply (h_num _ _ _ _ _ _ _ H) in Nz as (i & Hi & Ei). destruct (U i Hi Ei).
  - intros Nz. split; [exact Lz|]. intros i Hi Ei. assert (num z = true); [|congruence]. apply (h_num _ _ _ _ _ _ _ H). eauto.
Qed.
Lemma hist_sym k v w Sb g num l : hist k v w Sb g num l -> symmetric g.
Proof.
  intros H a b Hab. apply (h_g _ _ _ _ _ _ _ H) in Hab. apply (h_g _ _ _ _ _ _ _ H). destruct Hab as [Hab|(i & Hi & X)]; [left; apply Sy0, Hab|right].
  exists i. split; [exact Hi|]. tauto.
Qed.
(** among the vertices not chosen, and the one just chosen, the edges are the original ones *)
Lemma hist_edge k v w Sb g num l a b : hist k v w Sb g num l -> unch n v k a -> unch n v k b -> (edge g a b <-> E a b).
Proof.
  intros H Ua Ub. rewrite (h_g _ _ _ _ _ _ _ H). split; [|auto]. intros [X|(i & Hi & [(-> & _)|(-> & _)])]; [exact X| |].
  - destruct (proj2 Ua i Hi eq_refl).
  - destruct (proj2 Ub i Hi eq_refl).
Qed.
Lemma fold_incr s : forall (w : nat -> nat) x, NoDup s ->
  fold_left (fun w j => fupd w j (S (w j))) s w x = w x + (if set_mem x s then 1 else 0).
Proof.
  induction s as [|j s IH]; intros w x ND; cbn [fold_left set_mem existsb]; [lia|]. inversion ND; subst. rewrite IH by assumption.
  fold (set_mem x s). unfold fupd. destruct (Nat.eqb_spec x j) as [->|Nx]; cbn [orb].
  - destruct (set_mem j s) eqn:Ej; [apply set_mem_spec in Ej; contradiction|lia].
  - lia.
Qed.
Lemma via_edges (E1 E2 : nat -> nat -> Prop) (P D : nat -> Prop) a b : D a -> D b -> (forall x, P x -> D x) -> (forall x y, D x -> D y -> (E1 x y <-> E2 x y)) -> via E1 P a b -> via E2 P a b.
Proof.
  intros Da Db PD EE V. revert Da. induction V as [a b Hab|a x b Hax Px V IH]; intros Da.
  - apply via_edge. apply EE; assumption.
  - apply (via_step _ _ _ x); [apply EE; auto|exact Px|]. apply IH; auto.
Qed.
Lemma loop_ok i : forall k v w Sb g num l wc B, i + k = n -> hist k v w Sb g num l -> (forall z, unch n v k z -> wc z = w k z) -> (forall z, z < n -> wc z <= B) ->
  exists m g' l' v' w' Sb' num', (forall fuel, m <= fuel -> mcsm_loop rnd fuel g i wc num l = Ok (g', l')) /\ hist n v' w' Sb' g' num' l'.
Proof.
  induction i as [|i IH]; intros k v w Sb g num l wc B Hk H Hw HB.
  - exists 0, g, l, v, w, Sb, num. split; [reflexivity|]. replace n with k by lia. exact H.
  - destruct (pick_ok rnd (S i) wc num n (hist_free _ _ _ _ _ _ _ H ltac:(lia))) as (x & Ep & Lx & Nx & Mx).
    set (num' := fupd num x true). set (v' := fupd v k x).
    assert (Ux : unch n v k x) by (apply (num_unch _ _ _ _ _ _ _ x H Lx), Nx).
    assert (Hvk : v' k = x) by apply fupd_same.
    assert (Uv : forall k' z, k' <= k -> (unch n v' k' z <-> unch n v k' z)) by (intros k' z L; apply unch_fupd; exact L).
    assert (Hnum : forall z, num' z = true <-> exists i0, i0 < S k /\ v' i0 = z).
    { intros z. unfold num', fupd at 1. destruct (Nat.eqb_spec z x) as [->|Nz].
      - split; [intros _; exists k; split; [lia|exact Hvk]|reflexivity].
      - rewrite (h_num _ _ _ _ _ _ _ H). split; intros (i0 & Hi & Ei).
        + exists i0. split; [lia|]. unfold v'. rewrite fupd_other by lia. exact Ei.
        + destruct (Nat.eq_dec i0 k) as [->|Nk]; [congruence|]. exists i0. split; [lia|]. unfold v' in Ei. rewrite fupd_other in Ei by exact Nk. exact Ei. }
    assert (Hl : x :: l = rev (map v' (seq 0 (S k)))).
    { rewrite seq_S, map_app, rev_app_distr. cbn [map rev app Nat.add]. rewrite Hvk. f_equal. rewrite (h_l _ _ _ _ _ _ _ H). f_equal. apply map_ext_in. intros j Hj. apply in_seq in Hj. unfold v'. rewrite fupd_other by lia. reflexivity. }
    assert (Hmax : forall z, unch n v k z -> w k z <= w k x).
    { intros z Uz. rewrite <- (Hw z Uz), <- (Hw x Ux). apply Mx; [apply Uz|]. apply (num_unch _ _ _ _ _ _ _ z H (proj1 Uz)), Uz. }
    assert (UvS : forall z, unch n v' (S k) z <-> unch n v k z /\ z <> x).
    { intros z. rewrite (unch_S n v' k z), Hvk, (Uv k z (le_n k)). intuition congruence. }
    assert (Slow' : forall ws k' z, k' < k -> forall y, Slow n v' ws k' z y <-> Slow n v ws k' z y).
    { intros ws k' z L y. unfold Slow. rewrite (Uv (S k') y L). reflexivity. }
    destruct i as [|i'].
    { exists 0, g, (x :: l), v', w, Sb, num'. split; [intros fuel _; cbn [mcsm_loop]; rewrite (h_len _ _ _ _ _ _ _ H), Ep; reflexivity|].
      assert (Nk : n = S k) by lia. 
      assert (Full : forall z, ~ unch n v' (S k) z).
      { intros z Uz. destruct (hist_nodup _ _ _ _ _ _ _ H) as [ND In0].
        assert (ND' : NoDup (x :: map v (seq 0 k))).
        { constructor; [|exact ND]. intros X. apply in_map_iff in X as (j & Ej & Hj). apply in_seq in Hj. apply (proj2 Ux j); [lia|exact Ej]. }
        assert (ND2 : NoDup (z :: x :: map v (seq 0 k))).
        { constructor; [|exact ND']. apply UvS in Uz as [Uz Nz]. intros [X|X]; [congruence|]. apply in_map_iff in X as (j & Ej & Hj). apply in_seq in Hj. apply (proj2 Uz j); [lia|exact Ej]. }
        apply (NoDup_incl_length (l' := seq 0 n)) in ND2.
        - cbn [length] in ND2. rewrite map_length, !seq_length in ND2. lia.
        - intros y [<-|[<-|Hy]]; [apply in_seq; destruct Uz; lia|apply in_seq; lia|apply In0, Hy]. }
      rewrite Nk at 1. constructor.
      - intros k' L. destruct (Nat.eq_dec k' k) as [->|Nk'].
        + rewrite Hvk. split; [apply Uv; [lia|exact Ux]|]. intros z Uz. apply Hmax, Uv; [lia|exact Uz].
        + assert (Lk : k' < k) by lia. assert (Ev : v' k' = v k') by (unfold v'; apply fupd_other; lia). rewrite Ev. destruct (h_v _ _ _ _ _ _ _ H k' Lk) as [A C].
          split; [apply Uv; [lia|exact A]|]. intros z Uz. apply C, Uv; [lia|exact Uz].
      - intros k' z L Uz. destruct (Nat.eq_dec k' k) as [->|Nk']; [destruct (Full z Uz)|]. assert (Lk : k' < k) by lia.
        assert (Ev : v' k' = v k') by (unfold v'; apply fupd_other; lia). rewrite Ev, (h_S _ _ _ _ _ _ _ H k' z Lk ltac:(apply Uv; [lia|exact Uz])).
        split; apply via_mono; intros y; apply Slow'; exact Lk.
      - intros k' z L Uz. destruct (Nat.eq_dec k' k) as [->|Nk']; [destruct (Full z Uz)|]. apply (h_w _ _ _ _ _ _ _ H); [lia|]. apply Uv; [lia|exact Uz].
      - exact Hnum.
      - exact Hl.
      - apply (h_len _ _ _ _ _ _ _ H).
      - apply (h_wf _ _ _ _ _ _ _ H).
      - intros a b. rewrite (h_g _ _ _ _ _ _ _ H). split; (intros [X|(j & Hj & X)]; [left; exact X|]).
        + right. exists j. split; [lia|]. assert (Ev : v' j = v j) by (unfold v'; apply fupd_other; lia). rewrite Ev, !(Uv (S j)) by lia. exact X.
        + destruct (Nat.eq_dec j k) as [->|Nj]; [destruct X as [(_ & X & _)|(_ & X & _)]; destruct (Full _ X)|].
          right. exists j. split; [lia|]. assert (Ev : v' j = v j) by (unfold v'; apply fupd_other; lia). rewrite Ev, !(Uv (S j)) in X by lia. exact X. }
    (* a proper round *)
    pose proof (h_len _ _ _ _ _ _ _ H) as Lg.
    destruct (bfs_ok g x wc num' B (h_wf _ _ _ _ _ _ _ H) (hist_sym _ _ _ _ _ _ _ H)) as (m1 & g1 & T1 & Lg1 & W1 & Eg1).
    { rewrite Lg. exact Lx. } { apply fupd_same. } { rewrite Lg. exact HB. }
    assert (UU : forall z, U g num' z <-> unch n v' (S k) z).
    { intros z. unfold U. rewrite Lg, UvS. unfold num', fupd. split.
      - intros [Lz Nz]. destruct (Nat.eqb_spec z x) as [->|Nzx]; [discriminate|]. split; [apply (num_unch _ _ _ _ _ _ _ z H Lz), Nz|exact Nzx].
      - intros [Uz Nz]. split; [apply Uz|]. destruct (Nat.eqb_spec z x); [contradiction|]. apply (num_unch _ _ _ _ _ _ _ z H (proj1 Uz)), Uz. }
    set (Sb' := fun k' z => if k' =? k then set_mem z (nth x g1 []) else Sb k' z).
    set (wc' := fold_left (fun w j => fupd w j (S (w j))) (nth x g1 []) wc).
    set (w' := fun k' => if k' =? S k then wc' else w k').
    assert (Hw' : forall k', k' <= k -> w' k' = w k') by (intros k' L; unfold w'; destruct (Nat.eqb_spec k' (S k)); [lia|reflexivity]).
    assert (LowE : forall z, unch n v' (S k) z -> (via (edge g) (low g wc num' z) x z <-> via E (Slow n v' w' k z) x z)).
    { intros z Uz. assert (PP : forall y, low g wc num' z y <-> Slow n v' w' k z y).
      { intros y. unfold low, Slow. rewrite UU, (Hw' k (le_n k)). split; intros [A C]; (split; [exact A|]); pose proof (proj1 (UvS y) A) as [Uy _]; pose proof (proj1 (UvS z) Uz) as [Uz' _]; rewrite (Hw y Uy), (Hw z Uz') in *; exact C. }
      assert (D1 : forall y, low g wc num' z y -> unch n v k y) by (intros y [A _]; apply UU, UvS in A; apply A).
      assert (Dz : unch n v k z) by (apply (proj1 (UvS z) Uz)).
      assert (EE : forall a b, unch n v k a -> unch n v k b -> (edge g a b <-> E a b)) by (intros a b; apply (hist_edge _ _ _ _ _ _ _ a b H)).
      split; intros V.
      - apply (via_mono _ (low g wc num' z)); [intros y; apply PP|]. apply (via_edges (edge g) E _ (unch n v k) x z Ux Dz D1 EE V).
      - apply (via_mono _ (Slow n v' w' k z)); [intros y; apply PP|]. apply (via_edges E (edge g) _ (unch n v k) x z Ux Dz); [intros y Hy; apply D1, PP, Hy|intros a b A C; symmetry; apply EE; assumption|exact V]. }
    assert (HSk : forall z, unch n v' (S k) z -> (Sb' k z = true <-> via E (Slow n v' w' k z) x z)).
    { intros z Uz. unfold Sb'. rewrite Nat.eqb_refl, set_mem_spec. fold (edge g1 x z). rewrite (Eg1 x z), <- (LowE z Uz).
      split; [|intros V; right; left; split; [reflexivity|split; [apply UU; exact Uz|exact V]]].
      intros [X|[(_ & _ & V)|(-> & X & _)]]; [apply via_edge, X|exact V|]. apply UvS in Uz as [_ Uz]. congruence. }
    destruct (IH (S k) v' w' Sb' g1 num' (x :: l) wc' (S B)) as (m2 & g' & l' & v2 & w2 & Sb2 & num2 & T2 & H2).
    + lia.
    + constructor.
      * intros k' L. destruct (Nat.eq_dec k' k) as [->|Nk'].
        { rewrite Hvk, (Hw' k (le_n k)). split; [apply Uv; [lia|exact Ux]|]. intros z Uz. apply Hmax, Uv; [lia|exact Uz]. }
        { assert (Lk : k' < k) by lia. assert (Ev : v' k' = v k') by (unfold v'; apply fupd_other; lia). rewrite Ev, (Hw' k') by lia. destruct (h_v _ _ _ _ _ _ _ H k' Lk) as [A C].
          split; [apply Uv; [lia|exact A]|]. intros z Uz. apply C, Uv; [lia|exact Uz]. }
      * intros k' z L Uz. destruct (Nat.eq_dec k' k) as [->|Nk']; [rewrite Hvk; apply HSk, Uz|]. assert (Lk : k' < k) by lia.
        assert (Ev : v' k' = v k') by (unfold v'; apply fupd_other; lia). rewrite Ev. unfold Sb'. destruct (Nat.eqb_spec k' k); [contradiction|].
        rewrite (h_S _ _ _ _ _ _ _ H k' z Lk ltac:(apply Uv; [lia|exact Uz])).
        split; apply via_mono; intros y; unfold Slow; rewrite (Hw' k') by lia; apply Slow'; exact Lk.
      * intros k' z L Uz. unfold Sb'. destruct (Nat.eqb_spec k' k) as [->|Nk'].
        { rewrite (Hw' k (le_n k)). unfold w'. rewrite Nat.eqb_refl. unfold wc'. rewrite fold_incr by (apply sorted_nodup, W1). rewrite (Hw z (proj1 (proj1 (UvS z) Uz))). reflexivity. }
        { rewrite !Hw' by lia. apply (h_w _ _ _ _ _ _ _ H); [lia|]. apply Uv; [lia|exact Uz]. }
      * exact Hnum.
      * exact Hl.
      * rewrite Lg1. exact Lg.
      * exact W1.
      * intros a b. rewrite (Eg1 a b), (h_g _ _ _ _ _ _ _ H). split.
        { intros [[X|(j & Hj & X)]|[(-> & Ub & V)|(-> & Ua & V)]].
          - left. exact X.
          - right. exists j. split; [lia|]. assert (Ev : v' j = v j) by (unfold v'; apply fupd_other; lia). unfold Sb'. destruct (Nat.eqb_spec j k); [lia|]. rewrite Ev, !(Uv (S j)) by lia. exact X.
          - apply UU in Ub. right. exists k. split; [lia|]. left. split; [symmetry; exact Hvk|]. split; [exact Ub|]. apply HSk; [exact Ub|]. apply LowE; assumption.
          - apply UU in Ua. right. exists k. split; [lia|]. right. split; [symmetry; exact Hvk|]. split; [exact Ua|]. apply HSk; [exact Ua|]. apply LowE; assumption. }
        { intros [X|(j & Hj & X)]; [left; left; exact X|]. destruct (Nat.eq_dec j k) as [->|Nj].
          - rewrite Hvk in X. destruct X as [(-> & Ub & V)|(-> & Ua & V)].
            + right. left. split; [reflexivity|]. split; [apply UU, Ub|]. apply (LowE b Ub), (HSk b Ub), V.
            + right. right. split; [reflexivity|]. split; [apply UU, Ua|]. apply (LowE a Ua), (HSk a Ua), V.
          - left. right. exists j. split; [lia|]. assert (Ev : v' j = v j) by (unfold v'; apply fupd_other; lia). unfold Sb' in X. destruct (Nat.eqb_spec j k); [lia|]. rewrite Ev, !(Uv (S j)) in X by lia. exact X. }
    + intros z Uz. unfold w'. rewrite Nat.eqb_refl. reflexivity.
    + intros z Lz. unfold wc'. rewrite fold_incr by (apply sorted_nodup, W1). specialize (HB z Lz). destruct (set_mem z (nth x g1 [])); lia.
    + exists (m1 + m2), g', l', v2, w2, Sb2, num2. split; [|exact H2]. intros fuel Hf. cbn [mcsm_loop]. rewrite Lg, Ep.
      fold num'. rewrite Lg in T1. rewrite T1 by lia. cbn [obind]. apply T2. lia.
Qed.
End Loop.

Theorem mcs_m_ok rnd g : wf_adj g -> symmetric g ->
  exists m g' l, (forall fuel, m <= fuel -> mcs_m rnd fuel g = Ok (g', l)) /\ Permutation l (seq 0 (length g)) /\ length g' = length g /\ wf_adj g' /\ symmetric g' /\
    (forall a b, edge g a b -> edge g' a b) /\ perfect_order g' l.
Proof.
  intros W Sy.
  destruct (loop_ok rnd g Sy (length g) 0 (fun _ => 0) (fun _ _ => 0) (fun _ _ => false) g (fun _ => false) [] (fun _ => 0) 0) as (m & g' & l & v & w & Sb & num & T & H).
  - lia.
  - constructor; [intros; lia|intros; lia|intros; lia| |reflexivity|reflexivity|exact W|].
    + intros z. split; [discriminate|]. intros (i & Hi & _). lia.
    + intros a b. split; [auto|]. intros [X|(i & Hi & _)]; [exact X|lia].
  - reflexivity.
  - reflexivity.
  - exists m, g', l. split; [intros fuel Hf; unfold mcs_m; rewrite (wf_in_range g W); apply T, Hf|].
    destruct (hist_nodup rnd g _ _ _ _ _ _ _ H) as [ND I]. pose proof (h_l _ _ _ _ _ _ _ _ H) as El. split.
    { rewrite El. etransitivity; [symmetry; apply Permutation_rev|]. apply NoDup_Permutation_bis; [exact ND|rewrite map_length; reflexivity|exact I]. }
    split; [apply (h_len _ _ _ _ _ _ _ _ H)|]. split; [apply (h_wf _ _ _ _ _ _ _ _ H)|]. split; [apply (hist_sym rnd g Sy _ _ _ _ _ _ _ H)|]. split.
    { intros a b Hab. apply (h_g _ _ _ _ _ _ _ _ H). left. exact Hab. }
    intros l1 x l2 y z Es Hy Hz Nyz Exy Exz.
    (* positions *)
    assert (Ex : map v (seq 0 (length g)) = rev l2 ++ x :: rev l1).
    { rewrite <- (rev_involutive (map v _)), <- El, Es, rev_app_distr. cbn [rev]. rewrite <- app_assoc. reflexivity. }
    set (j := length l2). assert (Lj : j < length g).
    { apply (f_equal (@length nat)) in Ex. rewrite map_length, seq_length, app_length, rev_length in Ex. cbn [length] in Ex. unfold j. lia. }
    assert (Nth : forall i, i < length g -> nth i (map v (seq 0 (length g))) 0 = v i).
    { intros i Hi. rewrite (nth_indep _ 0 (v 0)) by (rewrite map_length, seq_length; exact Hi). rewrite map_nth, seq_nth by exact Hi. reflexivity. }
    assert (Vj : v j = x).
    { rewrite <- (Nth j Lj), Ex, app_nth2; rewrite rev_length; [|unfold j; lia]. unfold j. rewrite Nat.sub_diag. reflexivity. }
    assert (Pos : forall u, In u l2 -> exists i, i < j /\ v i = u).
    { intros u Hu. apply in_rev in Hu. apply (In_nth _ _ 0) in Hu as (i & Hi & Eu). rewrite rev_length in Hi. exists i. split; [exact Hi|].
      rewrite <- (Nth i ltac:(unfold j in Lj; lia)), Ex, app_nth1 by (rewrite rev_length; exact Hi). exact Eu. }
    destruct (Pos y Hy) as (iy & Ly & Vy). destruct (Pos z Hz) as (iz & Lz & Vz).
    pose proof (h_v _ _ _ _ _ _ _ _ H) as HV. pose proof (h_S _ _ _ _ _ _ _ _ H) as HS. pose proof (h_w _ _ _ _ _ _ _ _ H) as HW.
    assert (Inj : forall a b, a < length g -> b < length g -> v a = v b -> a = b).
    { intros a b La Lb Eab. destruct (Nat.lt_trichotomy a b) as [L|[L|L]]; [|exact L|].
      - destruct (proj2 (proj1 (HV b Lb)) a L Eab).
      - destruct (proj2 (proj1 (HV a La)) b L (eq_sym Eab)). }
    assert (ES : forall i, i < j -> edge g' x (v i) -> Sb i x = true).
    { intros i Li Hi. assert (Ux : unch (length g) v (S i) x).
      { rewrite <- Vj. destruct (HV j Lj) as [[A C] _]. split; [exact A|]. intros i0 Hi0. apply C. lia. }
      apply (h_g _ _ _ _ _ _ _ _ H) in Hi as [Hi|(i0 & Hi0 & [(Ea & Ub & _)|(Ea & Ua & Sx)])].
      - apply (HS i x ltac:(lia) Ux). apply via_edge, Sy, Hi.
      - exfalso. rewrite <- Vj in Ea. apply (Inj j i0 Lj Hi0) in Ea. subst i0. apply (proj2 Ub i); [lia|reflexivity].
      - apply (Inj i i0 ltac:(lia) Hi0) in Ea. subst i0. exact Sx. }
    assert (Main : forall a b, a < b -> b < j -> edge g' x (v a) -> edge g' x (v b) -> edge g' (v a) (v b)).
    { intros a b Lab Lb Ha Hb. apply (h_g _ _ _ _ _ _ _ _ H). right. exists a. split; [lia|]. left. split; [reflexivity|]. split.
      - destruct (HV b ltac:(lia)) as [[A C] _]. split; [exact A|]. intros i0 Hi0. apply C. lia.
      - apply (mcsm_simplicial (edge g) Sy (length g) v w Sb HV HS HW a b j Lab Lb Lj); rewrite Vj; apply ES; auto; lia. }
    destruct (Nat.lt_trichotomy iy iz) as [L|[L|L]].
    + subst y z. apply Main; auto.
    + congruence.
    + subst y z. apply (hist_sym rnd g Sy _ _ _ _ _ _ _ H), Main; auto.
Qed.
