(** * Proofs about [pair_vec_*]. *)
From Coq Require Import Ring Ring_theory Sorting.Sorted Permutation.
From Verif Require Import Prelude Coef OrderSpec PairVec.

Section PV.
Context {A B : Type} (ok : A -> Prop) (gt eqA : A -> A -> bool) (K : coefs B).
Context (HO : order_on ok gt) (HE : forall a b, eqA a b = true <-> a = b) (HK : ring_ok K).
Add Ring Kr : (ring_laws K HK).
Notation "0c" := (c0 K).
Infix "+c" := (cadd K) (at level 50, left associativity).
Notation csum := (@csum A B K).

Lemma eqA_refl a : eqA a a = true.
Proof. apply HE; reflexivity. Qed.
Lemma eqA_spec a b : reflect (a = b) (eqA a b).
Proof. apply iff_reflect. symmetry. apply HE. Qed.
Lemma is0_spec c : reflect (c = 0c) (is0 K c).
Proof. apply (ceqb_spec K HK). Qed.

Lemma gt_asym a b : ok a -> ok b -> gt a b = true -> gt b a = false.
Proof.
  intros Ha Hb H. destruct (gt b a) eqn:E; [|reflexivity].
  pose proof (gt_trans ok gt HO a b a Ha Hb Ha H E) as C.
  rewrite (gt_irrefl ok gt HO a Ha) in C. discriminate.
Qed.
Lemma gt_neq a b : ok a -> gt a b = true -> a <> b.
Proof. intros Ha H ->. rewrite (gt_irrefl ok gt HO b Ha) in H. discriminate. Qed.

(** ** csum *)
Lemma csum_app phi l1 l2 : csum phi (l1 ++ l2) = csum phi l1 +c csum phi l2.
Proof. induction l1 as [|[a b] l1 IH]; simpl; [ring|]. destruct (phi a); rewrite IH; ring. Qed.
Lemma csum_Permutation phi l1 l2 : Permutation l1 l2 -> csum phi l1 = csum phi l2.
Proof.
  induction 1 as [|[a b] l1 l2 _ IH|[a b] [a' b'] l|l1 l2 l3 _ IH1 _ IH2]; simpl;
    try reflexivity.
  - rewrite IH; reflexivity.
  - destruct (phi a), (phi a'); ring.
  - congruence.
Qed.
Lemma csum_ext phi psi l : (forall a, In a (map fst l) -> phi a = psi a) -> csum phi l = csum psi l.
Proof.
  induction l as [|[a b] l IH]; simpl; intros H; [reflexivity|].
  rewrite (H a) by tauto. rewrite IH by (intros; apply H; tauto). reflexivity.
Qed.
Lemma csum_notin phi l : (forall a, In a (map fst l) -> phi a = false) -> csum phi l = 0c.
Proof.
  induction l as [|[a b] l IH]; simpl; intros H; [reflexivity|].
  rewrite (H a) by tauto. apply IH. intros; apply H; tauto.
Qed.
Lemma csum_negate phi l : csum phi (pv_negate K l) = copp K (csum phi l).
Proof. induction l as [|[a b] l IH]; simpl; [ring|]. rewrite IH. destruct (phi a); ring. Qed.

(** ** Sortedness helpers *)
Lemma desc_nil : desc gt (@nil (A * B)).
Proof. constructor. Qed.
Lemma desc_cons (t : A * B) l :
  desc gt (t :: l) <-> desc gt l /\ Forall (fun u => gt (fst t) (fst u) = true) l.
Proof.
  unfold desc; simpl. split.
  - intros H. apply StronglySorted_inv in H as [H1 H2]. split; [assumption|].
    apply Forall_map in H2. exact H2.
  - intros [H1 H2]. constructor; [assumption|]. apply Forall_map. exact H2.
Qed.
Lemma Forall_gt_trans (a b : A) (l : list (A * B)) :
  ok a -> ok b -> all_ok ok l -> gt a b = true ->
  Forall (fun u => gt b (fst u) = true) l -> Forall (fun u => gt a (fst u) = true) l.
Proof.
  intros Ha Hb Hl H. unfold all_ok in Hl. rewrite !Forall_forall in *. intros H' u Hu.
  eapply (gt_trans ok gt HO); [exact Ha|exact Hb|apply Hl, Hu|exact H|apply H', Hu].
Qed.

(** ** Negation *)
Lemma map_fst_negate l : map fst (@pv_negate A B K l) = map fst l.
Proof. unfold pv_negate. rewrite map_map. reflexivity. Qed.
Lemma copp_nz c : c <> 0c -> copp K c <> 0c.
Proof.
  intros H E. apply H. transitivity (copp K (copp K c)); [ring|]. rewrite E. ring.
Qed.
Lemma nonzero_negate l : @nonzero A B K l -> nonzero K (pv_negate K l).
Proof.
  unfold nonzero, pv_negate. rewrite Forall_map. apply Forall_impl. intros t Ht; simpl.
  apply copp_nz, Ht.
Qed.
Lemma normal_negate l : normal ok gt K l -> normal ok gt K (pv_negate K l).
Proof.
  intros (H1 & H2 & H3). repeat split.
  - unfold all_ok, pv_negate in *. rewrite Forall_map. exact H1.
  - unfold desc. rewrite map_fst_negate. exact H2.
  - apply nonzero_negate, H3.
Qed.

(** ** Addition *)
Lemma pv_add_cons t1 r1 t2 r2 :
  pv_add gt eqA K (t1 :: r1) (t2 :: r2) =
    if gt (fst t2) (fst t1) then t2 :: pv_add gt eqA K (t1 :: r1) r2
    else if eqA (fst t2) (fst t1) then
      if is0 K (cadd K (snd t2) (snd t1)) then pv_add gt eqA K r1 r2
      else (fst t1, cadd K (snd t2) (snd t1)) :: pv_add gt eqA K r1 r2
    else t1 :: pv_add gt eqA K r1 (t2 :: r2).
Proof. reflexivity. Qed.
Lemma pv_add_nil_r l : pv_add gt eqA K l [] = l.
Proof. destruct l; reflexivity. Qed.

Lemma csum_add phi l1 l2 : csum phi (pv_add gt eqA K l1 l2) = csum phi l1 +c csum phi l2.
Proof.
  revert l2; induction l1 as [|[a1 b1] r1 IH1]; intros l2.
  - simpl. ring.
  - induction l2 as [|[a2 b2] r2 IH2].
    + rewrite pv_add_nil_r. simpl. ring.
    + rewrite pv_add_cons. cbn [fst snd].
      destruct (gt a2 a1).
      * cbn [OrderSpec.csum]. rewrite IH2. cbn [OrderSpec.csum]. destruct (phi a1), (phi a2); ring.
      * destruct (eqA_spec a2 a1) as [->|n].
        -- destruct (is0_spec (b2 +c b1)) as [E|E].
           ++ rewrite IH1. cbn [OrderSpec.csum]. destruct (phi a1); [|ring].
              transitivity ((b2 +c b1) +c (csum phi r1 +c csum phi r2)); [rewrite E; ring|ring].
           ++ cbn [OrderSpec.csum]. rewrite IH1. destruct (phi a1); ring.
        -- cbn [OrderSpec.csum]. rewrite IH1. cbn [OrderSpec.csum].
           destruct (phi a1), (phi a2); ring.
Qed.

Lemma pv_add_keys (P : A -> Prop) l1 l2 :
  Forall (fun t => P (fst t)) l1 -> Forall (fun t => P (fst t)) l2 ->
  Forall (fun t => P (fst t)) (pv_add gt eqA K l1 l2).
Proof.
  revert l2; induction l1 as [|t1 r1 IH1]; intros l2 H1 H2; [exact H2|].
  induction l2 as [|t2 r2 IH2]; [exact H1|].
  rewrite pv_add_cons. inversion H1; inversion H2; subst.
  destruct (gt (fst t2) (fst t1)); [constructor; auto|].
  destruct (eqA (fst t2) (fst t1)).
  - destruct (is0 _ _); [|constructor]; auto.
  - constructor; auto.
Qed.

Lemma normal_cons t l :
  normal ok gt K (t :: l) <->
  ok (fst t) /\ snd t <> 0c /\ Forall (fun u => gt (fst t) (fst u) = true) l /\ normal ok gt K l.
Proof.
  unfold normal, all_ok, nonzero. rewrite desc_cons. split.
  - intros (H1 & [H2 H2'] & H3). inversion H1; inversion H3; subst. tauto.
  - intros (H1 & H2 & H3 & H4 & H5 & H6). repeat split; try constructor; tauto.
Qed.

Lemma normal_add l1 l2 :
  normal ok gt K l1 -> normal ok gt K l2 -> normal ok gt K (pv_add gt eqA K l1 l2).
Proof.
  revert l2; induction l1 as [|t1 r1 IH1]; intros l2 H1 H2; [exact H2|].
  induction l2 as [|t2 r2 IH2]; [exact H1|].
  rewrite pv_add_cons.
  pose proof H1 as H1'. pose proof H2 as H2'.
  apply normal_cons in H1 as (O1 & N1 & G1 & R1). apply normal_cons in H2 as (O2 & N2 & G2 & R2).
  destruct (gt (fst t2) (fst t1)) eqn:E.
  - apply normal_cons. repeat split; try (apply IH2; assumption); try assumption.
    apply (pv_add_keys (fun a => gt (fst t2) a = true)); [|assumption].
    constructor; [assumption|].
    apply (Forall_gt_trans (fst t2) (fst t1)); [exact O2|exact O1|apply R1|exact E|exact G1].
  - destruct (eqA_spec (fst t2) (fst t1)) as [Ee|n].
    + destruct (is0_spec (snd t2 +c snd t1)) as [Z|Z]; [apply IH1; assumption|].
      apply normal_cons. cbn [fst snd]. repeat split; try assumption; try (apply IH1; assumption).
      apply (pv_add_keys (fun a => gt (fst t1) a = true)); [assumption|]. rewrite <- Ee. assumption.
    + assert (E' : gt (fst t1) (fst t2) = true).
      { destruct (gt_total ok gt HO _ _ O1 O2) as [e|[e|e]]; congruence. }
      apply normal_cons. repeat split; try assumption; try (apply IH1; assumption).
      apply (pv_add_keys (fun a => gt (fst t1) a = true)); [assumption|].
      constructor; [assumption|].
      apply (Forall_gt_trans (fst t1) (fst t2)); [exact O1|exact O2|apply R2|exact E'|exact G2].
Qed.

(** ** Subtraction *)
Lemma pv_sub_cons t1 r1 t2 r2 :
  pv_sub gt eqA K (t1 :: r1) (t2 :: r2) =
    if gt (fst t2) (fst t1) then (fst t2, copp K (snd t2)) :: pv_sub gt eqA K (t1 :: r1) r2
    else if eqA (fst t2) (fst t1) then
      if is0 K (csub K (snd t1) (snd t2)) then pv_sub gt eqA K r1 r2
      else (fst t1, csub K (snd t1) (snd t2)) :: pv_sub gt eqA K r1 r2
    else t1 :: pv_sub gt eqA K r1 (t2 :: r2).
Proof. reflexivity. Qed.
Lemma pv_sub_nil_r l : pv_sub gt eqA K l [] = l.
Proof. destruct l; reflexivity. Qed.

(** Subtraction is addition of the negation, as lists of terms. *)
Lemma pv_sub_add l1 l2 : pv_sub gt eqA K l1 l2 = pv_add gt eqA K l1 (pv_negate K l2).
Proof.
  revert l2; induction l1 as [|t1 r1 IH1]; intros l2; [reflexivity|].
  induction l2 as [|t2 r2 IH2]; [reflexivity|].
  change (pv_negate K (t2 :: r2)) with ((fst t2, copp K (snd t2)) :: pv_negate K r2) in *.
  rewrite pv_sub_cons, pv_add_cons. cbn [fst snd].
  rewrite IH2, !IH1.
  change (pv_negate K (t2 :: r2)) with ((fst t2, copp K (snd t2)) :: pv_negate K r2).
  replace (cadd K (copp K (snd t2)) (snd t1)) with (csub K (snd t1) (snd t2)) by ring.
  reflexivity.
Qed.

Lemma csum_sub phi l1 l2 : csum phi (pv_sub gt eqA K l1 l2) = csub K (csum phi l1) (csum phi l2).
Proof. rewrite pv_sub_add, csum_add, csum_negate. ring. Qed.
Lemma normal_sub l1 l2 :
  normal ok gt K l1 -> normal ok gt K l2 -> normal ok gt K (pv_sub gt eqA K l1 l2).
Proof. intros. rewrite pv_sub_add. apply normal_add; [|apply normal_negate]; assumption. Qed.

(** ** Uniqueness of normal forms *)
Lemma csum_eq_lt a l : ok a -> all_ok ok l -> Forall (fun u => gt a (fst u) = true) l ->
  csum (eqA a) l = 0c.
Proof.
  intros Ha Hl H. apply csum_notin. intros b Hb.
  apply in_map_iff in Hb as (u & <- & Hu). rewrite Forall_forall in H.
  specialize (H u Hu). destruct (eqA_spec a (fst u)) as [e|e]; [|reflexivity].
  exfalso. exact (gt_neq _ _ Ha H e).
Qed.

Lemma csum_eq_head t l : normal ok gt K (t :: l) -> csum (eqA (fst t)) (t :: l) = snd t.
Proof.
  intros H. apply normal_cons in H as (O & N & G & R). destruct t as [a b]; simpl in *.
  rewrite eqA_refl, csum_eq_lt; [ring|exact O|apply R|exact G].
Qed.

Lemma normal_unique l1 l2 :
  normal ok gt K l1 -> normal ok gt K l2 ->
  (forall a, ok a -> csum (eqA a) l1 = csum (eqA a) l2) -> l1 = l2.
Proof.
  revert l2; induction l1 as [|t1 r1 IH]; intros [|t2 r2] H1 H2 H.
  - reflexivity.
  - exfalso. pose proof (csum_eq_head _ _ H2) as E.
    apply normal_cons in H2 as (O & N & _). apply N. rewrite <- E, <- (H _ O). reflexivity.
  - exfalso. pose proof (csum_eq_head _ _ H1) as E.
    apply normal_cons in H1 as (O & N & _). apply N. rewrite <- E, (H _ O). reflexivity.
  - pose proof (csum_eq_head _ _ H1) as E1. pose proof (csum_eq_head _ _ H2) as E2.
    pose proof H1 as H1'. pose proof H2 as H2'.
    apply normal_cons in H1 as (O1 & N1 & G1 & R1). apply normal_cons in H2 as (O2 & N2 & G2 & R2).
    assert (Ek : fst t1 = fst t2).
    { destruct (gt_total ok gt HO _ _ O1 O2) as [e|[e|e]]; [exact e| |].
      - exfalso. apply N1. rewrite <- E1, (H _ O1). destruct t2 as [a2 b2]. simpl in *.
        destruct (eqA_spec (fst t1) a2) as [x|x]; [exfalso; exact (gt_neq _ _ O1 e x)|].
        apply csum_eq_lt; [exact O1|apply R2|].
        eapply Forall_gt_trans; [exact O1|exact O2|apply R2|exact e|exact G2].
      - exfalso. apply N2. rewrite <- E2, <- (H _ O2). destruct t1 as [a1 b1]. simpl in *.
        destruct (eqA_spec (fst t2) a1) as [x|x]; [exfalso; exact (gt_neq _ _ O2 e x)|].
        apply csum_eq_lt; [exact O2|apply R1|].
        eapply Forall_gt_trans; [exact O2|exact O1|apply R1|exact e|exact G1]. }
    assert (Ev : snd t1 = snd t2).
    { rewrite <- E1, <- E2, (H _ O1), Ek. reflexivity. }
    destruct t1 as [a1 b1], t2 as [a2 b2]; simpl in *; subst a2 b2. f_equal.
    apply IH; [assumption|assumption|]. intros a Ha. specialize (H a Ha). simpl in H.
    destruct (eqA a a1); [|exact H].
    transitivity (copp K b1 +c (b1 +c csum (eqA a) r1)); [ring|]. rewrite H. ring.
Qed.

Lemma pv_equal_to_spec v1 v2 : pv_equal_to eqA K v1 v2 = true <-> v1 = v2.
Proof.
  revert v2; induction v1 as [|[a b] r IH]; intros [|[a' b'] r']; simpl; split; intros H;
    try discriminate; try reflexivity.
  - apply andb_true_iff in H as [H H3]. apply andb_true_iff in H as [H1 H2].
    apply HE in H1. apply (ceqb_eq K HK) in H2. apply IH in H3. subst; reflexivity.
  - injection H as -> -> ->. rewrite eqA_refl. rewrite (proj2 (ceqb_eq K HK b' b') eq_refl).
    rewrite (proj2 (IH r') eq_refl). reflexivity.
Qed.

(** ** Normalization *)
Definition wsorted (l : list (A * B)) : Prop :=
  StronglySorted (fun t u : A * B => gt (fst u) (fst t) = false) l.

Lemma is_sorted_wsorted l : all_ok ok l -> is_sorted gt l = true -> wsorted l.
Proof.
  induction l as [|t1 r IH]; intros Hok H; [constructor|].
  inversion Hok as [|? ? O1 Or]; subst.
  destruct r as [|t2 r'].
  - constructor; constructor.
  - simpl in H. apply andb_true_iff in H as [H1 H2]. specialize (IH Or H2).
    constructor; [exact IH|]. inversion Or as [|? ? O2 Or']; subst.
    apply negb_true_iff in H1. constructor; [exact H1|].
    apply StronglySorted_inv in IH as [_ IH]. unfold all_ok in *. rewrite Forall_forall in *. intros u Hu.
    specialize (IH u Hu). assert (Ou : ok (fst u)) by (apply Or'; exact Hu).
    destruct (gt (fst u) (fst t1)) eqn:E; [|reflexivity].
    destruct (gt_total ok gt HO _ _ O1 O2) as [e|[e|e]].
    + rewrite e in E. congruence.
    + pose proof (gt_trans ok gt HO _ _ _ Ou O1 O2 E e). congruence.
    + congruence.
Qed.

Lemma csum_norm_loop phi t r :
  csum phi (norm_loop eqA K t r) = csum phi (t :: r).
Proof.
  revert t; induction r as [|[a2 b2] r IH]; intros [a1 b1]; [reflexivity|].
  cbn [norm_loop fst snd].
  destruct (is0_spec b2) as [->|n].
  - rewrite IH. simpl. destruct (phi a1), (phi a2); ring.
  - destruct (eqA_spec a1 a2) as [->|n'].
    + rewrite IH. simpl. destruct (phi a2); ring.
    + simpl. rewrite IH. simpl. reflexivity.
Qed.
Lemma csum_norm_skip phi l : csum phi (norm_skip eqA K l) = csum phi l.
Proof.
  induction l as [|[a b] l IH]; [reflexivity|]. cbn [norm_skip snd].
  destruct (is0_spec b) as [->|n].
  - rewrite IH. simpl. destruct (phi a); [ring|reflexivity].
  - apply csum_norm_loop.
Qed.

Lemma norm_loop_keys (P : A -> Prop) t r :
  P (fst t) -> Forall (fun u => P (fst u)) r -> Forall (fun u => P (fst u)) (norm_loop eqA K t r).
Proof.
  revert t; induction r as [|t2 r IH]; intros t Ht Hr; cbn [norm_loop].
  - constructor; auto.
  - inversion Hr; subst. destruct (is0 K (snd t2)); [auto|].
    destruct (eqA (fst t) (fst t2)); [apply IH; auto|constructor; auto].
Qed.

Lemma norm_loop_desc t r :
  all_ok ok (t :: r) -> wsorted (t :: r) -> desc gt (norm_loop eqA K t r).
Proof.
  revert t; induction r as [|t2 r IH]; intros t Hok Hs; cbn [norm_loop].
  - apply desc_cons. split; [apply desc_nil|constructor].
  - inversion Hok as [|? ? O1 Or]; inversion Or as [|? ? O2 Or']; subst.
    apply StronglySorted_inv in Hs as [Hs1 Hs2]. inversion Hs2 as [|? ? Hs3 Hs4]; subst.
    pose proof Hs1 as Hs1'. apply StronglySorted_inv in Hs1' as [Hs5 Hs6].
    destruct (is0 K (snd t2)).
    + apply IH; constructor; assumption.
    + destruct (eqA_spec (fst t) (fst t2)) as [e|n].
      * apply IH; constructor; assumption.
      * apply desc_cons. split; [apply IH; assumption|].
        assert (G : gt (fst t) (fst t2) = true).
        { destruct (gt_total ok gt HO _ _ O1 O2) as [e|[e|e]]; congruence. }
        apply (norm_loop_keys (fun a => gt (fst t) a = true)); [exact G|].
        rewrite Forall_forall in *. intros u Hu. specialize (Hs6 u Hu).
        destruct (gt_total ok gt HO _ _ O2 (Or' u Hu)) as [e|[e|e]].
        -- rewrite <- e. exact G.
        -- eapply (gt_trans ok gt HO); [exact O1|exact O2|exact (Or' u Hu)|exact G|exact e].
        -- congruence.
Qed.

Lemma norm_skip_props l : all_ok ok l -> wsorted l ->
  all_ok ok (norm_skip eqA K l) /\ desc gt (norm_skip eqA K l).
Proof.
  induction l as [|t l IH]; intros Hok Hs; cbn [norm_skip].
  - split; [constructor|apply desc_nil].
  - inversion Hok; subst. destruct (is0 K (snd t)).
    + apply IH; [assumption|]. apply StronglySorted_inv in Hs. apply Hs.
    + split; [apply norm_loop_keys; assumption|apply norm_loop_desc; assumption].
Qed.

(** What normalization always guarantees. *)
Lemma normalization_sound srt l :
  sort_ok ok gt srt -> all_ok ok l ->
  let r := pv_normalization gt eqA K srt l in
  all_ok ok r /\ desc gt r /\ (forall phi, csum phi r = csum phi l).
Proof.
  intros Hsrt Hok r. unfold pv_normalization in r.
  destruct (Hsrt l Hok) as [Hp Hs].
  assert (Hok' : all_ok ok (srt l)).
  { unfold all_ok in *. rewrite Forall_forall in *. intros x Hx. apply Hok.
    eapply Permutation_in; [apply Permutation_sym, Hp|exact Hx]. }
  destruct (is_sorted gt l) eqn:E; subst r.
  - destruct (norm_skip_props l Hok (is_sorted_wsorted l Hok E)) as [H1 H2].
    repeat split; [exact H1|exact H2|]. intros phi. apply csum_norm_skip.
  - destruct (norm_skip_props (srt l) Hok' Hs) as [H1 H2].
    repeat split; [exact H1|exact H2|]. intros phi. rewrite csum_norm_skip.
    apply csum_Permutation, Permutation_sym, Hp.
Qed.

(** Keys of the result carry at least one non-zero input coefficient. *)
Lemma norm_loop_in a t r :
  snd t <> 0c \/ False -> In a (map fst (norm_loop eqA K t r)) ->
  exists b, In (a, b) (t :: r) /\ b <> 0c \/ a = fst t.
Proof.
  intros _. revert t; induction r as [|t2 r IH]; intros t; cbn [norm_loop].
  - simpl. intros [<-|[]]. exists (snd t). right; reflexivity.
  - destruct (is0_spec (snd t2)) as [Z|Z].
    + intros H. destruct (IH t H) as (b & [[[Hb|Hb] Hb2]|Hb]).
      * exists b. left. split; [left; exact Hb|exact Hb2].
      * exists b. left. split; [right; right; exact Hb|exact Hb2].
      * exists b. right; exact Hb.
    + destruct (eqA_spec (fst t) (fst t2)) as [e|n].
      * intros H. destruct (IH _ H) as (b & [[[Hb|Hb] Hb2]|Hb]).
        -- exists b. right. injection Hb as Hb _. symmetry; exact Hb.
        -- exists b. left. split; [right; right; exact Hb|exact Hb2].
        -- exists b. right. exact Hb.
      * simpl. intros [<-|H]; [exists (snd t); right; reflexivity|].
        destruct (IH _ H) as (b & [[Hb Hb2]|Hb]).
        -- exists b. left. split; [right; exact Hb|exact Hb2].
        -- exists (snd t2). left. split; [right; left; destruct t2; simpl in *; subst; reflexivity|exact Z].
Qed.
Lemma norm_skip_in a l :
  In a (map fst (norm_skip eqA K l)) -> exists b, In (a, b) l /\ b <> 0c.
Proof.
  induction l as [|t l IH]; cbn [norm_skip]; [intros []|].
  destruct (is0_spec (snd t)) as [Z|Z].
  - intros H. destruct (IH H) as (b & Hb & Hb2). exists b. split; [right|]; assumption.
  - intros H. destruct (norm_loop_in a t l (or_introl Z) H) as (b & [[Hb Hb2]|Hb]).
    + exists b. split; assumption.
    + exists (snd t). split; [left; destruct t; simpl in *; subst; reflexivity|exact Z].
Qed.

Lemma csum_desc_in t l : all_ok ok l -> desc gt l -> In t l -> csum (eqA (fst t)) l = snd t.
Proof.
  induction l as [|u l IH]; intros Hok Hd; [intros []|].
  inversion Hok as [|? ? O Or]; subst. apply desc_cons in Hd as [Hd G].
  intros [->|Hin].
  - destruct t as [a b]; simpl in *. rewrite eqA_refl, csum_eq_lt; [ring|exact O|exact Or|exact G].
  - destruct u as [a b]; simpl. rewrite Forall_forall in G. specialize (G t Hin). simpl in G.
    destruct (eqA_spec (fst t) a) as [e|e].
    + exfalso. simpl in O. exact (gt_neq a (fst t) O G (eq_sym e)).
    + apply IH; assumption.
Qed.

(** Normal form is reached whenever no key with a non-zero coefficient cancels completely. *)
Lemma normalization_normal srt l :
  sort_ok ok gt srt -> all_ok ok l ->
  (forall a b, In (a, b) l -> b <> 0c -> csum (eqA a) l <> 0c) ->
  normal ok gt K (pv_normalization gt eqA K srt l).
Proof.
  intros Hsrt Hok Hnc.
  destruct (normalization_sound srt l Hsrt Hok) as (H1 & H2 & H3).
  split; [exact H1|]. split; [exact H2|].
  unfold nonzero. rewrite Forall_forall. intros t Ht E.
  assert (Hin : exists b, In (fst t, b) l /\ b <> 0c).
  { unfold pv_normalization in Ht. pose proof (in_map fst _ _ Ht) as Hin.
    apply norm_skip_in in Hin as (b & Hb & Hb2). exists b. split; [|exact Hb2].
    destruct (is_sorted gt l); [exact Hb|].
    eapply Permutation_in; [apply Permutation_sym; apply (Hsrt l Hok)|exact Hb]. }
  destruct Hin as (b & Hb & Hb2).
  apply (Hnc _ _ Hb Hb2). rewrite <- H3. rewrite (csum_desc_in t _ H1 H2 Ht). exact E.
Qed.

Lemma normalization_id srt l : normal ok gt K l -> pv_normalization gt eqA K srt l = l.
Proof.
  intros H. unfold pv_normalization.
  assert (is_sorted gt l = true) as ->.
  { induction l as [|t1 [|t2 r] IH]; [reflexivity|reflexivity|].
    apply normal_cons in H as (O & N & G & R).
    change (negb (gt (fst t2) (fst t1)) && is_sorted gt (t2 :: r) = true). rewrite (IH R).
    inversion G as [|? ? G1 G2]; subst. apply normal_cons in R as (O2 & _).
    rewrite (gt_asym _ _ O O2 G1). reflexivity. }
  destruct l as [|t r]; [reflexivity|]. cbn [norm_skip].
  pose proof H as H'. apply normal_cons in H' as (O & N & G & R).
  destruct (is0_spec (snd t)) as [|_]; [contradiction|].
  clear N. revert t O G H. induction r as [|t2 r IH]; intros t O G H; [reflexivity|].
  cbn [norm_loop]. pose proof R as R'. apply normal_cons in R' as (O2 & N2 & G2 & R2).
  destruct (is0_spec (snd t2)) as [|_]; [contradiction|].
  inversion G as [|? ? G1 _]; subst.
  destruct (eqA_spec (fst t) (fst t2)) as [e|_]; [exfalso; exact (gt_neq _ _ O G1 e)|].
  f_equal. apply IH; assumption.
Qed.
End PV.
