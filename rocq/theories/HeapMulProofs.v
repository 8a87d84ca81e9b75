(** * Heap multiplication computes the product. *)
From Coq Require Import Permutation Sorting.Sorted Ring.
From Verif Require Import Prelude Coef OrderSpec PairVecProofs Heap HeapProofs.

Section Aux.
Context {A B : Type} (gt : A -> A -> bool).
Lemma desc_snoc (l : list (A * B)) t :
  desc gt l -> Forall (fun u => gt (fst u) (fst t) = true) l -> desc gt (l ++ [t]).
Proof.
  unfold desc. rewrite map_app. induction l as [|u l IH]; simpl; intros Hd Hl.
  - constructor; constructor.
  - inversion Hd as [|? ? Hd' Hu]; subst. inversion Hl; subst.
    constructor; [apply IH; assumption|]. apply Forall_app. split; [exact Hu|]. constructor; [assumption|constructor].
Qed.
Lemma desc_nth (l : list (A * B)) i j d : desc gt l -> i < j -> j < length l ->
  gt (fst (nth i l d)) (fst (nth j l d)) = true.
Proof.
  unfold desc. revert i j; induction l as [|u l IH]; simpl; intros i j Hd Hij Hj; [lia|].
  inversion Hd as [|? ? Hd' Hu]; subst. destruct i as [|i], j as [|j]; try lia.
  - rewrite Forall_forall in Hu. apply Hu, in_map, nth_In. lia.
  - apply IH; [assumption|lia|lia].
Qed.
End Aux.

Section HMP.
Context {M C : Type} (okp : M -> Prop) (gt eqM : M -> M -> bool) (mmul : M -> M -> M) (K : coefs C).
Context (HO : order_on okp gt) (HE : forall a b, eqM a b = true <-> a = b) (HK : ring_ok K).
Variables v1 v2 : list (M * C).
Variable d : M * C.

Let n1 := length v1.
Let n2 := length v2.
Notation a i := (nth i v1 d).
Notation b j := (nth j v2 d).
Definition P (i j : nat) : M := mmul (fst (nth i v1 d)) (fst (nth j v2 d)).

Context (Pok : forall i j, i < n1 -> j < n2 -> okp (P i j)).
Context (Prow : forall i j j', i < n1 -> j < j' -> j' < n2 -> gt (P i j) (P i j') = true).
Context (Pcol : forall i i' j, i < i' -> i' < n1 -> j < n2 -> gt (P i j) (P i' j) = true).
Context (Hn2 : 0 < n2).

Add Ring Kring : (ring_laws K HK).
Notation "x +c y" := (cadd K x y) (at level 50, left associativity).
Notation dn := (Node (fst d) 0 0).
Notation nodeM := (@node M).

(** the products not yet consumed: from node (i,j) to the end of row i *)
Definition row (i j : nat) : list (M * C) :=
  map (fun u => (mmul (fst (nth i v1 d)) (fst u), cmul K (snd (nth i v1 d)) (snd u))) (skipn j v2).
Definition rems (l : list nodeM) : list (M * C) := flat_map (fun n => row (ni n) (nj n)) l.
Definition fresh (r : nat) : list (M * C) := flat_map (fun i => row i 0) (seq r (n1 - r)).

Lemma skipn_nth {A} (l : list A) j x : j < length l -> skipn j l = nth j l x :: skipn (S j) l.
Proof.
  revert j; induction l as [|h t IH]; intros [|j] Hj; simpl in *; try lia; auto.
  rewrite (IH j) by lia. reflexivity.
Qed.
Lemma row_cons i j : j < n2 ->
  row i j = (P i j, cmul K (snd (a i)) (snd (b j))) :: row i (S j).
Proof. intros Hj. unfold row. rewrite (skipn_nth v2 j d Hj). reflexivity. Qed.
Lemma row_end i j : n2 <= j -> row i j = [].
Proof. intros Hj. unfold row. rewrite skipn_all2 by exact Hj. reflexivity. Qed.
Lemma fresh_cons r : r < n1 -> fresh r = row r 0 ++ fresh (S r).
Proof.
  intros Hr. unfold fresh. replace (n1 - r) with (S (n1 - S r)) by lia. reflexivity.
Qed.
Lemma fresh_end : fresh n1 = [].
Proof. unfold fresh. rewrite Nat.sub_diag. reflexivity. Qed.
Lemma rems_app l1 l2 : rems (l1 ++ l2) = rems l1 ++ rems l2.
Proof. apply flat_map_app. Qed.
Lemma rems_perm l1 l2 : Permutation l1 l2 -> Permutation (rems l1) (rems l2).
Proof. apply Permutation_flat_map. Qed.

Definition node_ok (reset : nat) (n : nodeM) : Prop :=
  nm n = P (ni n) (nj n) /\ ni n < reset /\ nj n < n2 /\ (nj n = 0 -> S (ni n) = reset).

(** Invariant of the collection [L] of live nodes (heap and lin). *)
Record inv (H : list (list nodeM)) (L : list nodeM) (reset : nat) : Prop := {
  inv_reset : 0 < reset <= n1;
  inv_nodup : NoDup (map ni L);
  inv_nodes : Forall (node_ok reset) L;
  inv_last : reset < n1 -> exists n, In n L /\ nj n = 0 /\ S (ni n) = reset;
  inv_fresh : forall i, reset <= i -> i < n1 -> nth i H [] = [Node (P i 0) i 0];
}.

Lemma inv_length H L reset : inv H L reset -> length L <= reset.
Proof.
  intros I. rewrite <- (map_length ni). rewrite <- (seq_length reset 0).
  apply NoDup_incl_length; [apply (inv_nodup _ _ _ I)|].
  intros i Hi. apply in_map_iff in Hi as (n & <- & Hn).
  pose proof (inv_nodes _ _ _ I) as Hf. rewrite Forall_forall in Hf. destruct (Hf n Hn) as (_ & Hlt & _).
  apply in_seq. lia.
Qed.
Lemma inv_perm H L L' reset : Permutation L L' -> inv H L reset -> inv H L' reset.
Proof.
  intros HP I. split.
  - apply I.
  - eapply Permutation_NoDup; [apply Permutation_map, HP|apply I].
  - rewrite <- HP. apply I.
  - intros Hr. destruct (inv_last _ _ _ I Hr) as (n & Hn & Hj). exists n. split; [|exact Hj].
    rewrite <- HP. exact Hn.
  - apply I.
Qed.
Lemma inv_heap H H' L reset : (forall i, reset <= i -> i < n1 -> nth i H' [] = nth i H []) ->
  inv H L reset -> inv H' L reset.
Proof.
  intros HH I. split; try apply I. intros i Hi Hi'. rewrite HH by assumption. apply I; assumption.
Qed.

Lemma node_ok_ok n reset : reset <= n1 -> node_ok reset n -> okp (nm n).
Proof. intros Hr (-> & Hi & Hj & _). apply Pok; [lia|exact Hj]. Qed.


(** One chain. [R] stands for the other nodes of the heap. *)
Lemma chain_loop_ok (c : list nodeM) : forall H R m k reset lin,
  n1 <= length H -> okp m ->
  inv H (c ++ R ++ lin) reset ->
  Forall (fun n => nm n = m) c ->
  Forall (fun n => gt m (nm n) = true) lin ->
  exists k' reset' lin',
    chain_loop mmul K v1 v2 H c k reset lin = Ok (k', reset', lin') /\
    inv H (R ++ lin') reset' /\
    Forall (fun n => gt m (nm n) = true) lin' /\
    length (rems lin') + length (fresh reset') + length c
      = length (rems c) + length (rems lin) + length (fresh reset) /\
    reset <= reset' /\
    forall phi : M -> bool,
      (if phi m then k' else c0 K) +c csum K phi (rems lin') +c csum K phi (fresh reset')
      = (if phi m then k else c0 K) +c csum K phi (rems c) +c csum K phi (rems lin)
        +c csum K phi (fresh reset).
Proof.
  induction c as [|n c IH]; intros H R m k reset lin HH Hm I Hc Hl.
  { exists k, reset, lin. cbn [chain_loop]. split; [reflexivity|]. split; [exact I|]. split; [exact Hl|].
    split; [cbn; lia|]. split; [lia|]. intros phi. cbn [rems flat_map csum]. ring. }
  inversion Hc as [|? ? Hnm Hc']; subst.
  pose proof (inv_nodes _ _ _ I) as Hall. rewrite Forall_forall in Hall.
  pose proof (inv_reset _ _ _ I) as Hreset.
  destruct (Hall n (or_introl eq_refl)) as (Hnn & Hni & Hnj & Hj0).
  pose proof (inv_nodup _ _ _ I) as Hnd. cbn [map app] in Hnd. inversion Hnd as [|? ? Hnotin Hnd']; subst.
  cbn [chain_loop].
  rewrite (aget_nth v1 (ni n) d) by (fold n1; lia). cbn [obind].
  rewrite (aget_nth v2 (nj n) d) by exact Hnj. cbn [obind].
  set (k1 := k +c cmul K (snd (a (ni n))) (snd (b (nj n)))).
  (* release of a fresh row *)
  assert (STEP : exists reset1 lin1,
     (if Nat.eqb (nj n) 0 && negb (Nat.eqb reset (length v1)) then
        ch <- aget H reset ;;
        match ch with [] => UB | n0 :: _ => l <- lin_push v1 lin n0 ;; Ok (S reset, l) end
      else Ok (reset, lin)) = Ok (reset1, lin1) /\
     reset <= reset1 <= n1 /\
     NoDup (ni n :: map ni (c ++ R ++ lin1)) /\
     Forall (node_ok reset1) (c ++ R ++ lin1) /\
     (reset1 < n1 -> exists n', In n' (c ++ R ++ lin1) /\ nj n' = 0 /\ S (ni n') = reset1) /\
     Forall (fun n' => gt (nm n) (nm n') = true) lin1 /\
     length (rems lin1) + length (fresh reset1) = length (rems lin) + length (fresh reset) /\
     forall phi, csum K phi (rems lin1) +c csum K phi (fresh reset1)
               = csum K phi (rems lin) +c csum K phi (fresh reset)).
  { fold n1. destruct (Nat.eqb_spec (nj n) 0) as [E0|E0]; cbn [andb].
    - destruct (Nat.eqb_spec reset n1) as [Er|Er]; cbn [negb].
      + exists reset, lin. split; [reflexivity|]. split; [lia|]. split; [exact Hnd|].
        split; [apply Forall_forall; intros n' Hn'; apply Hall; right; exact Hn'|].
        split; [lia|]. split; [exact Hl|]. split; [reflexivity|reflexivity].
      + rewrite (aget_nth H reset []) by lia. cbn [obind].
        rewrite (inv_fresh _ _ _ I reset) by lia.
        unfold lin_push. fold n1.
        pose proof (inv_length _ _ _ I) as Hlen. cbn [app length] in Hlen. rewrite !app_length in Hlen.
        destruct (Nat.ltb_spec (length lin) n1) as [_|]; [|lia]. cbn [obind].
        exists (S reset), (Node (P reset 0) reset 0 :: lin). split; [reflexivity|]. split; [lia|].
        assert (Perm : Permutation (c ++ R ++ Node (P reset 0) reset 0 :: lin)
                                   (Node (P reset 0) reset 0 :: c ++ R ++ lin)).
        { rewrite !app_assoc. symmetry. apply Permutation_middle. }
        split; [|split; [|split; [|split; [|split]]]].
        * eapply Permutation_NoDup with (l := ni n :: reset :: map ni (c ++ R ++ lin)).
          { constructor. change (reset :: map ni (c ++ R ++ lin))
              with (map ni (Node (P reset 0) reset 0 :: c ++ R ++ lin)).
            apply Permutation_map. symmetry. exact Perm. }
          assert (Hrn : ~ In reset (map ni (n :: c ++ R ++ lin))).
          { intros Hin. apply in_map_iff in Hin as (n' & En' & Hn').
            destruct (Hall n' Hn') as (_ & Hlt & _). lia. }
          cbn [map] in Hrn. constructor.
          -- intros [Ein|Hin]; [lia|contradiction].
          -- constructor; [|exact Hnd']. intros Hin. apply Hrn. right. exact Hin.
        * rewrite Perm. constructor.
          { repeat split; cbn; lia. }
          apply Forall_forall. intros n' Hn'. destruct (Hall n' (or_intror Hn')) as (Q1 & Q2 & Q3 & Q4).
          repeat split; [exact Q1|lia|exact Q3|]. intros Q0. exfalso. apply Hnotin.
          rewrite in_map_iff. exists n'. split; [|exact Hn']. specialize (Q4 Q0). specialize (Hj0 E0). lia.
        * intros _. exists (Node (P reset 0) reset 0). split; [|split; reflexivity].
          rewrite Perm. left. reflexivity.
        * constructor; [|exact Hl]. cbn [nm]. rewrite Hnn, E0. specialize (Hj0 E0).
          apply Pcol; lia.
        * rewrite (fresh_cons reset) by lia. cbn [rems flat_map ni nj]. rewrite !app_length.
          fold (rems lin). lia.
        * intros phi. rewrite (fresh_cons reset) by lia. cbn [rems flat_map ni nj]. fold (rems lin).
          rewrite !(csum_app K HK). ring.
    - exists reset, lin. split; [reflexivity|]. split; [lia|]. split; [exact Hnd|].
      split; [apply Forall_forall; intros n' Hn'; apply Hall; right; exact Hn'|].
      split; [|split; [exact Hl|split; [reflexivity|reflexivity]]].
      intros Hr. destruct (inv_last _ _ _ I Hr) as (n' & Hn' & Q0 & Q1).
      exists n'. split; [|split; assumption]. destruct Hn' as [->|Hn']; [contradiction|exact Hn']. }
  destruct STEP as (reset1 & lin1 & Es & Hr1 & Hnd1 & Hnodes1 & Hlast1 & Hl1 & Hlen1 & Hcs1).
  rewrite Es. cbn [obind]. fold n2. clear Es.
  assert (Hfr1 : forall i, reset1 <= i -> i < n1 -> nth i H [] = [Node (P i 0) i 0]).
  { intros i Hi Hi'. apply (inv_fresh _ _ _ I); lia. }
  assert (Erow : rems (n :: c) = (nm n, cmul K (snd (a (ni n))) (snd (b (nj n)))) :: row (ni n) (S (nj n)) ++ rems c).
  { unfold rems. cbn [flat_map]. rewrite (row_cons (ni n) (nj n) Hnj), <- Hnn. reflexivity. }
  assert (Ek : forall phi : M -> bool, (if phi (nm n) then k1 else c0 K)
     = (if phi (nm n) then k else c0 K) +c (if phi (nm n) then cmul K (snd (a (ni n))) (snd (b (nj n))) else c0 K)).
  { intros phi. unfold k1. destruct (phi (nm n)); ring. }
  assert (Ecs : forall phi, csum K phi (rems (n :: c))
     = (if phi (nm n) then cmul K (snd (a (ni n))) (snd (b (nj n))) else c0 K)
       +c csum K phi (row (ni n) (S (nj n))) +c csum K phi (rems c)).
  { intros phi. rewrite Erow. cbn [csum]. rewrite (csum_app K HK). destruct (phi (nm n)); ring. }
  destruct (Nat.eqb_spec (S (nj n)) n2) as [En|En]; cbn [negb].
  - assert (I1 : inv H (c ++ R ++ lin1) reset1).
    { split; [lia| |exact Hnodes1|exact Hlast1|exact Hfr1]. inversion Hnd1; assumption. }
    destruct (IH H R (nm n) k1 reset1 lin1 HH Hm I1 Hc' Hl1) as (k' & reset' & lin' & E & I' & Hl' & Hlen' & Hrr & Hcs').
    exists k', reset', lin'. split; [exact E|]. split; [exact I'|]. split; [exact Hl'|].
    split; [|split; [lia|]].
    + rewrite Erow, (row_end (ni n)) by lia. cbn [length app]. lia.
    + intros phi. rewrite Hcs', Ek, Ecs, (row_end (ni n)) by lia. cbn [csum].
      specialize (Hcs1 phi).
      transitivity ((if phi (nm n) then k else c0 K) +c (if phi (nm n) then cmul K (snd (a (ni n))) (snd (b (nj n))) else c0 K)
         +c csum K phi (rems c) +c (csum K phi (rems lin1) +c csum K phi (fresh reset1))); [ring|].
      rewrite Hcs1. ring.
  - rewrite (aget_nth v2 (S (nj n)) d) by (fold n2; lia). cbn [obind].
    change (mmul (fst (a (ni n))) (fst (b (S (nj n))))) with (P (ni n) (S (nj n))).
    set (nn := Node (P (ni n) (S (nj n))) (ni n) (S (nj n))).
    assert (Perm : Permutation (c ++ R ++ nn :: lin1) (nn :: c ++ R ++ lin1)).
    { rewrite !app_assoc. symmetry. apply Permutation_middle. }
    assert (I1 : inv H (c ++ R ++ nn :: lin1) reset1).
    { apply (inv_perm H (nn :: c ++ R ++ lin1)); [symmetry; exact Perm|]. split; [lia|exact Hnd1| | |exact Hfr1].
      - constructor; [|exact Hnodes1]. repeat split; cbn; lia.
      - intros Hr. destruct (Hlast1 Hr) as (n' & Hn' & Q). exists n'. split; [right; exact Hn'|exact Q]. }
    assert (Hlt : length lin1 < n1).
    { pose proof (inv_length _ _ _ I1) as Hlen. rewrite !app_length in Hlen. cbn [length] in Hlen. lia. }
    unfold lin_push. fold n1. destruct (Nat.ltb_spec (length lin1) n1) as [_|]; [|lia]. cbn [obind].
    destruct (IH H R (nm n) k1 reset1 (nn :: lin1) HH Hm I1 Hc') as (k' & reset' & lin' & E & I' & Hl' & Hlen' & Hrr & Hcs').
    { constructor; [|exact Hl1]. cbn [nm nn]. rewrite Hnn. apply Prow; lia. }
    assert (En' : rems (nn :: lin1) = row (ni n) (S (nj n)) ++ rems lin1) by reflexivity.
    exists k', reset', lin'. split; [exact E|]. split; [exact I'|]. split; [exact Hl'|].
    split; [|split; [lia|]].
    + rewrite Erow. rewrite En' in Hlen'. rewrite app_length in Hlen'. cbn [length]. rewrite app_length. lia.
    + intros phi. rewrite Hcs', Ek, Ecs, En', (csum_app K HK).
      specialize (Hcs1 phi).
      transitivity ((if phi (nm n) then k else c0 K) +c (if phi (nm n) then cmul K (snd (a (ni n))) (snd (b (nj n))) else c0 K)
         +c csum K phi (row (ni n) (S (nj n)))
         +c csum K phi (rems c) +c (csum K phi (rems lin1) +c csum K phi (fresh reset1))); [ring|].
      rewrite Hcs1. ring.
Qed.

Lemma nodes_hd (H : list (list nodeM)) s : 0 < length H -> nodes H (S s) = nth 0 H [] ++ nodes (tl H) s.
Proof. destruct H; simpl; intros; [lia|reflexivity]. Qed.

(** One round: everything with the leading monomial [m] leaves the heap. *)
Lemma round_ok (fuel : nat) : forall H hs m k reset lin,
  n1 <= length H -> 0 < hs -> hs <= fuel -> okp m ->
  heap_ok okp gt dn H hs -> key dn H 0 = m ->
  inv H (nodes H hs ++ lin) reset ->
  Forall (fun n => gt m (nm n) = true) lin ->
  exists H' hs' k' reset' lin',
    round gt eqM mmul K v1 v2 fuel H hs m k reset lin = Ok (H', hs', k', reset', lin') /\
    length H' = length H /\
    heap_ok okp gt dn H' hs' /\
    inv H' (nodes H' hs' ++ lin') reset' /\
    Forall (fun n => gt m (nm n) = true) (nodes H' hs' ++ lin') /\
    length (rems (nodes H' hs' ++ lin')) + length (fresh reset')
      < length (rems (nodes H hs ++ lin)) + length (fresh reset) /\
    forall phi : M -> bool,
      (if phi m then k' else c0 K) +c csum K phi (rems (nodes H' hs' ++ lin')) +c csum K phi (fresh reset')
      = (if phi m then k else c0 K) +c csum K phi (rems (nodes H hs ++ lin)) +c csum K phi (fresh reset).
Proof.
  induction fuel as [|f IH]; intros H hs m k reset lin HH Hhs Hf Hm Hok Hkey I Hl; [lia|].
  pose proof Hok as (Hlen & Hs & He).
  destruct hs as [|s]; [lia|].
  cbn [round]. rewrite (aget_nth H 0 []) by lia. cbn [obind].
  set (c := nth 0 H []) in *. set (R := nodes (tl H) s).
  assert (En : nodes H (S s) = c ++ R) by (apply nodes_hd; lia).
  rewrite En in I. rewrite <- app_assoc in I.
  assert (S0 : slot_ok okp c) by (apply Hs; lia).
  assert (Hc : Forall (fun n => nm n = m) c).
  { apply Forall_forall. intros n Hn. rewrite <- Hkey. apply (slot_key_all okp); assumption. }
  destruct (chain_loop_ok c H R m k reset lin HH Hm I Hc Hl)
    as (k1 & reset1 & lin1 & E1 & I1 & Hl1 & Hlen1 & Hr1 & Hcs1).
  rewrite E1. cbn [obind]. rewrite aset_ok by lia. cbn [obind].
  destruct (vhc_extract_ok okp gt eqM HO HE dn (lset H 0 []) s) as (H2 & E2 & L2 & Hok2 & P2 & K2).
  { rewrite length_lset. lia. }
  { intros j Hj0 Hj. rewrite nth_lset_neq by lia. apply Hs. lia. }
  { intros j Hj0 Hj Hp. unfold key. rewrite !nth_lset_neq by lia. apply He; lia. }
  rewrite length_lset in L2.
  rewrite E2. cbn [obind].
  assert (En2 : Permutation (nodes H2 s) R).
  { unfold R, nodes. apply concat_perm. rewrite P2. destruct H; reflexivity. }
  assert (Hss : S s <= reset1).
  { pose proof (inv_length _ _ _ I) as Hle. rewrite app_assoc, <- En, app_length in Hle.
    pose proof (nodes_length okp gt dn H (S s) Hok). lia. }
  assert (I2 : inv H2 (nodes H2 s ++ lin1) reset1).
  { apply (inv_heap H); [|apply (inv_perm H (R ++ lin1)); [apply Permutation_app_tail; symmetry; exact En2|exact I1]].
    intros i Hi Hi'. rewrite K2 by lia. apply nth_lset_neq. lia. }
  assert (Hdec : length (rems (nodes H2 s ++ lin1)) + length (fresh reset1)
                 < length (rems (nodes H (S s) ++ lin)) + length (fresh reset)).
  { rewrite En, !rems_app, !app_length. rewrite (Permutation_length (rems_perm _ _ En2)).
    destruct c as [|n0 c']; [contradiction|]. cbn [length] in Hlen1. lia. }
  assert (Hcs2 : forall phi : M -> bool,
      (if phi m then k1 else c0 K) +c csum K phi (rems (nodes H2 s ++ lin1)) +c csum K phi (fresh reset1)
      = (if phi m then k else c0 K) +c csum K phi (rems (nodes H (S s) ++ lin)) +c csum K phi (fresh reset)).
  { intros phi. rewrite En, !rems_app, !(csum_app K HK).
    rewrite (csum_Permutation K HK phi _ _ (rems_perm _ _ En2)).
    specialize (Hcs1 phi).
    transitivity ((if phi m then k1 else c0 K) +c csum K phi (rems lin1) +c csum K phi (fresh reset1)
                  +c csum K phi (rems R)); [ring|]. rewrite Hcs1. ring. }
  assert (Hle2 : forall n, In n (nodes H2 s) -> kge gt m (nm n)).
  { intros n Hn. rewrite <- Hkey. apply (nodes_root okp gt HO dn H (S s)); [exact Hok|].
    rewrite En. apply in_or_app. right. rewrite <- En2. exact Hn. }
  assert (Stop : (forall n, In n (nodes H2 s) -> nm n <> m) ->
    Forall (fun n => gt m (nm n) = true) (nodes H2 s ++ lin1)).
  { intros Hne. apply Forall_app. split; [|exact Hl1]. apply Forall_forall. intros n Hn.
    apply (kge_neq_gt okp gt HO); [exact Hm|apply (nodes_ok okp gt dn H2 s); assumption|apply Hle2, Hn|].
    intros E. apply (Hne n Hn). symmetry. exact E. }
  destruct (Nat.ltb_spec 0 s) as [Hs0|Hs0].
  - pose proof Hok2 as (Hlen2 & Hs2 & He2).
    rewrite (hkey_ok okp dn H2 0) by (try lia; apply Hs2; lia). cbn [obind].
    destruct (eqM (key dn H2 0) m) eqn:Em.
    + apply HE in Em.
      destruct (IH H2 s m k1 reset1 lin1 ltac:(lia) Hs0 ltac:(lia) Hm Hok2 Em I2 Hl1)
        as (H' & hs' & k' & reset' & lin' & E & L' & Hok' & I' & Hlt' & Hd' & Hcs').
      exists H', hs', k', reset', lin'. split; [exact E|]. split; [lia|]. split; [exact Hok'|].
      split; [exact I'|]. split; [exact Hlt'|]. split; [lia|]. intros phi. rewrite Hcs'. apply Hcs2.
    + exists H2, s, k1, reset1, lin1. split; [reflexivity|]. split; [lia|]. split; [exact Hok2|].
      split; [exact I2|]. split; [|split; [exact Hdec|exact Hcs2]]. apply Stop.
      intros n Hn Enm. pose proof (nodes_root okp gt HO dn H2 s n Hok2 Hn) as Hroot.
      assert (Hroot2 : kge gt m (key dn H2 0)).
      { assert (Hin0 : exists n0, In n0 (nodes H2 s) /\ nm n0 = key dn H2 0).
        { specialize (Hs2 0 Hs0). unfold key. destruct (nth 0 H2 []) as [|n0 r] eqn:E0; [contradiction|].
          exists n0. split; [|reflexivity]. destruct s; [lia|]. rewrite nodes_hd, E0 by lia. left. reflexivity. }
        destruct Hin0 as (n0 & Hn0 & <-). apply Hle2, Hn0. }
      assert (Okk : okp (key dn H2 0)) by (apply slot_key, Hs2; lia).
      rewrite Enm in Hroot. unfold kge in Hroot, Hroot2.
      destruct (gt_total okp gt HO _ _ Hm Okk) as [e|[e|e]]; [|congruence|congruence].
      rewrite <- e in Em. rewrite (proj2 (HE m m) eq_refl) in Em. discriminate.
  - assert (s = 0) as -> by lia.
    exists H2, 0, k1, reset1, lin1. split; [reflexivity|]. split; [lia|]. split; [exact Hok2|].
    split; [exact I2|]. split; [|split; [exact Hdec|exact Hcs2]]. apply Stop. intros n Hn. destruct Hn.
Qed.

Lemma mul_loop_ok (fuel : nat) : forall H hs reset out,
  length H = n1 ->
  length (rems (nodes H hs)) + length (fresh reset) < fuel ->
  heap_ok okp gt dn H hs ->
  inv H (nodes H hs) reset ->
  desc gt (rev out) -> nonzero K out -> all_ok okp out ->
  Forall (fun t => Forall (fun n => gt (fst t) (nm n) = true) (nodes H hs)) out ->
  exists res, mul_loop gt eqM mmul K v1 v2 fuel H hs reset out = Ok res /\
    normal okp gt K res /\
    forall phi, csum K phi res = csum K phi out +c csum K phi (rems (nodes H hs)) +c csum K phi (fresh reset).
Proof.
  induction fuel as [|f IH]; intros H hs reset out HL Hf Hok I Hd Hnz Hao Hgt; [lia|].
  cbn [mul_loop]. destruct (Nat.eqb_spec hs 0) as [->|Hhs].
  - exists (rev out). split; [reflexivity|]. split.
    + split; [|split]; [apply Forall_rev, Hao|exact Hd|apply Forall_rev, Hnz].
    + intros phi. assert (Er : reset = n1).
      { pose proof (inv_reset _ _ _ I). destruct (Nat.eq_dec reset n1) as [|Hne]; [assumption|].
        destruct (inv_last _ _ _ I ltac:(lia)) as (n & [] & _). }
      rewrite Er, fresh_end. cbn. rewrite (csum_Permutation K HK phi _ _ (Permutation_sym (Permutation_rev out))). ring.
  - pose proof Hok as (Hlen & Hs & He).
    assert (S0 : slot_ok okp (nth 0 H [])) by (apply Hs; lia).
    rewrite (hkey_ok okp dn H 0) by (try lia; assumption). cbn [obind].
    set (m := key dn H 0). assert (Hm : okp m) by (apply slot_key, S0).
    assert (Hm0 : exists n0, In n0 (nodes H hs) /\ nm n0 = m).
    { unfold m, key. destruct (nth 0 H []) as [|n0 r] eqn:E0; [contradiction|]. exists n0.
      split; [|reflexivity]. destruct hs; [lia|]. rewrite nodes_hd, E0 by lia. left. reflexivity. }
    destruct (round_ok (S (length v1)) H hs m (c0 K) reset [])
      as (H1 & hs1 & k & reset1 & lin & E1 & L1 & Hok1 & I1 & Hlt1 & Hdec1 & Hcs1).
    + lia.
    + lia.
    + fold n1. lia.
    + exact Hm.
    + exact Hok.
    + reflexivity.
    + rewrite app_nil_r. exact I.
    + constructor.
    + rewrite app_nil_r in Hdec1, Hcs1. rewrite E1. cbn [obind].
      pose proof (inv_length _ _ _ I1) as Hle1. rewrite app_length in Hle1.
      pose proof (inv_reset _ _ _ I1) as Hr1.
      pose proof (nodes_length okp gt dn H1 hs1 Hok1) as Hnl1.
      assert (Hlin_ok : Forall (fun n => okp (nm n)) lin).
      { pose proof (inv_nodes _ _ _ I1) as Hf1. apply Forall_app in Hf1 as [_ Hf1].
        eapply Forall_impl; [|exact Hf1]. intros n Hn. apply (node_ok_ok n reset1); [lia|exact Hn]. }
      destruct (insert_all_ok okp gt eqM HO HE dn lin H1 hs1 Hok1 ltac:(lia) Hlin_ok)
        as (H2 & hs2 & E2 & L2 & Hok2 & B2 & P2 & K2).
      rewrite E2. cbn [obind].
      assert (Perm : Permutation (nodes H2 hs2) (nodes H1 hs1 ++ lin)).
      { rewrite P2. apply Permutation_app_comm. }
      assert (Hout_m : Forall (fun t : M * C => gt (fst t) m = true) out).
      { eapply Forall_impl; [|exact Hgt]. intros t Ht. rewrite Forall_forall in Ht.
        destruct Hm0 as (n0 & Hn0 & <-). apply Ht, Hn0. }
      assert (Hlt2 : Forall (fun n => gt m (nm n) = true) (nodes H2 hs2)) by (rewrite Perm; exact Hlt1).
      assert (Hok2n : forall n, In n (nodes H2 hs2) -> okp (nm n)) by (intros n; apply (nodes_ok okp gt dn H2 hs2 n Hok2)).
      set (out' := if is0 K k then out else (m, k) :: out).
      destruct (IH H2 hs2 reset1 out') as (res & E & Hnorm & Hcs).
      * lia.
      * rewrite (Permutation_length (rems_perm _ _ Perm)). lia.
      * exact Hok2.
      * apply (inv_heap H1).
        { intros i Hi Hi'. apply K2. lia. }
        apply (inv_perm H1 (nodes H1 hs1 ++ lin)); [symmetry; exact Perm|exact I1].
      * unfold out'. destruct (is0 K k); [exact Hd|]. cbn [rev].
        apply desc_snoc; [exact Hd|]. apply Forall_rev. exact Hout_m.
      * unfold out'. destruct (is0_spec K HK k); [exact Hnz|constructor; assumption].
      * unfold out'. destruct (is0 K k); [exact Hao|]. constructor; assumption.
      * assert (G : Forall (fun t : M * C => Forall (fun n => gt (fst t) (nm n) = true) (nodes H2 hs2)) out).
        { apply Forall_forall. intros t Ht. apply Forall_forall. intros n Hn.
          rewrite Forall_forall in Hlt2, Hout_m. unfold all_ok in Hao. rewrite Forall_forall in Hao.
          apply (gt_trans okp gt HO _ m); [apply Hao, Ht|exact Hm|apply Hok2n, Hn|apply Hout_m, Ht|apply Hlt2, Hn]. }
        unfold out'. destruct (is0 K k); [exact G|]. constructor; [exact Hlt2|exact G].
      * exists res. split; [exact E|]. split; [exact Hnorm|]. intros phi. rewrite Hcs.
        rewrite (csum_Permutation K HK phi _ _ (rems_perm _ _ Perm)).
        assert (Eo : csum K phi out' = (if phi m then k else c0 K) +c csum K phi out).
        { unfold out'. destruct (is0_spec K HK k) as [->|]; cbn [csum]; destruct (phi m); ring. }
        rewrite Eo. specialize (Hcs1 phi).
        transitivity ((if phi m then k else c0 K) +c csum K phi (rems (nodes H1 hs1 ++ lin)) +c csum K phi (fresh reset1)
           +c csum K phi out); [ring|]. rewrite Hcs1. destruct (phi m); ring.
Qed.

(** all products *)
Definition products : list (M * C) :=
  flat_map (fun t => map (fun u => (mmul (fst t) (fst u), cmul K (snd t) (snd u))) v2) v1.

Lemma fresh_products : fresh 0 = products.
Proof.
  unfold fresh, products, row. rewrite Nat.sub_0_r. unfold n1. cbn [skipn].
  assert (G : forall l (f : M * C -> list (M * C)) l0, v1 = l0 ++ l ->
     flat_map (fun i => f (nth i v1 d)) (seq (length l0) (length l)) = flat_map f l).
  { induction l as [|t l IH]; intros f l0 E; [reflexivity|]. cbn [length seq flat_map]. f_equal.
    - rewrite E, nth_middle. reflexivity.
    - specialize (IH f (l0 ++ [t])). rewrite app_length in IH. cbn [length] in IH.
      rewrite Nat.add_1_r in IH. apply IH. rewrite E, <- app_assoc. reflexivity. }
  apply (G v1 (fun t => map (fun u => (mmul (fst t) (fst u), cmul K (snd t) (snd u))) v2) []). reflexivity.
Qed.
Lemma products_length : length products = n1 * n2.
Proof.
  unfold products, n1, n2.
  assert (G : forall l, length (flat_map (fun t => map (fun u => (mmul (fst t) (fst u), cmul K (snd t) (snd u))) v2) l)
            = length l * length v2).
  { induction l as [|t l IH]; [reflexivity|]. cbn [flat_map length]. rewrite app_length, map_length, IH. reflexivity. }
  apply G.
Qed.

Lemma init_heap_length (l : list (M * C)) : forall i x, length (init_heap mmul l i x) = length l.
Proof. induction l as [|t l IH]; intros i x; simpl; [reflexivity|]. rewrite IH. reflexivity. Qed.
Lemma init_heap_nth (l : list (M * C)) : forall k i x, i < length l ->
  nth i (init_heap mmul l k x) [] = [Node (mmul (fst (nth i l d)) x) (k + i) 0].
Proof.
  induction l as [|t l IH]; intros k i x Hi; simpl in Hi; [lia|]. destruct i as [|i]; cbn [init_heap nth].
  - rewrite Nat.add_0_r. reflexivity.
  - rewrite IH by lia. replace (S k + i) with (k + S i) by lia. reflexivity.
Qed.

Theorem heap_mul_ok : 0 < n1 ->
  exists res, heap_mul gt eqM mmul K v1 v2 = Ok res /\ normal okp gt K res /\
    forall phi, csum K phi res = csum K phi products.
Proof.
  intros Hn1.
  assert (Eh : heap_mul gt eqM mmul K v1 v2
     = mul_loop gt eqM mmul K v1 v2 (S (length v1 * length v2)) (init_heap mmul v1 0 (fst (b 0))) 1 1 []).
  { unfold heap_mul. unfold n2 in Hn2. clear - Hn2. destruct v2 as [|t r]; [simpl in Hn2; lia|reflexivity]. }
  rewrite Eh. set (H := init_heap mmul v1 0 (fst (b 0))).
  assert (HH : forall i, i < n1 -> nth i H [] = [Node (P i 0) i 0]).
  { intros i Hi. unfold H. rewrite init_heap_nth by exact Hi. reflexivity. }
  assert (HL : length H = n1) by apply init_heap_length.
  assert (En : nodes H 1 = [Node (P 0 0) 0 0]).
  { unfold nodes. rewrite (firstn_S_nth H 0 []) by lia. cbn [firstn app concat]. rewrite HH by lia. reflexivity. }
  destruct (mul_loop_ok (S (length v1 * length v2)) H 1 1 []) as (res & E & Hn & Hcs).
  - exact HL.
  - fold n1 n2. rewrite En. cbn [rems flat_map ni nj]. rewrite app_nil_r.
    rewrite <- app_length, <- (fresh_cons 0) by lia. rewrite fresh_products, products_length. lia.
  - split; [lia|]. split.
    + intros i Hi. assert (i = 0) as -> by lia. rewrite HH by lia. split; [apply Pok; lia|constructor].
    + intros i Hi0 Hi. lia.
  - rewrite En. split.
    + lia.
    + cbn. constructor; [intros []|constructor].
    + constructor; [|constructor]. repeat split; cbn; lia.
    + intros _. eexists. split; [left; reflexivity|]. split; reflexivity.
    + intros i Hi Hi'. apply HH, Hi'.
  - constructor.
  - constructor.
  - constructor.
  - constructor.
  - exists res. split; [exact E|]. split; [exact Hn|]. intros phi. rewrite Hcs, En.
    cbn [rems flat_map ni nj csum]. rewrite app_nil_r, <- fresh_products, (fresh_cons 0), (csum_app K HK) by lia. ring.
Qed.
End HMP.
