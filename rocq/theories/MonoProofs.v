(** * Proofs about monomials and monomial orders. *)
From Coq Require Import Ring Sorting.Sorted Permutation Setoid Morphisms.
From Verif Require Import Prelude Coef Spec SpecProofs OrderSpec PairVec PairVecProofs Mono.
Local Open Scope Z_scope.

Definition vorder_ok (vo : vorder) : Prop := order_on (fun _ => True) vo.

Lemma Zc_ring : ring_ok Zc.
Proof.
  split.
  - exact InitialRing.Zth.
  - intros a b. simpl. apply Z.eqb_eq.
Qed.
Lemma Neqb_iff (a b : N) : N.eqb a b = true <-> a = b.
Proof. apply N.eqb_eq. Qed.

(** ** Variable orders are strict total orders *)
Lemma vless_ok : vorder_ok vless.
Proof.
  split; unfold vless; intros; [apply N.ltb_irrefl| |].
  - rewrite N.ltb_lt in *. lia.
  - rewrite !N.ltb_lt. lia.
Qed.
Lemma vcustom_ok m : vorder_ok (vcustom m).
Proof.
  split; unfold vcustom; intros; lia.
Qed.
Lemma vuniv_ok v : vorder_ok (vuniv v).
Proof.
  split; unfold vuniv; intros; lia.
Qed.

(** ** Exponents *)
Lemma csumZ_deg_find l v : NoDup (map fst l) -> csum Zc (N.eqb v) l = deg_find l v.
Proof.
  induction l as [|[w e] l IH]; cbn [csum deg_find map fst]; intros H; [reflexivity|].
  inversion H; subst. rewrite N.eqb_sym. destruct (N.eqb_spec w v) as [->|n].
  - simpl. rewrite (csum_notin Zc); [simpl; lia|]. intros a Ha.
    destruct (N.eqb_spec v a); [subst; contradiction|reflexivity].
  - apply IH. assumption.
Qed.

Lemma csumZ_all l : csum Zc (fun _ => true) l = deg_sum l.
Proof. induction l as [|[w e] l IH]; simpl; [reflexivity|]. rewrite IH. reflexivity. Qed.

Lemma exp_sm l v : Forall (fun t => 0 < snd t) l ->
  exp (map (fun t => (fst t, Z.to_N (snd t))) l) v = Z.to_N (csum Zc (N.eqb v) l).
Proof.
  intros H. assert (G : 0 <= csum Zc (N.eqb v) l).
  { induction H as [|[w e] l He Hl IH]; simpl in *; [lia|]. destruct (N.eqb v w); lia. }
  revert G. induction H as [|[w e] l He Hl IH]; intros G; simpl in *; [reflexivity|].
  assert (G' : 0 <= csum Zc (N.eqb v) l).
  { clear -Hl. induction Hl as [|[w e] l He Hl IH]; simpl in *; [lia|]. destruct (N.eqb v w); lia. }
  rewrite (IH G'). rewrite (N.eqb_sym w v). destruct (N.eqb v w); lia.
Qed.
Lemma exp_pos_nonneg l v : Forall (fun t : var * Z => 0 < snd t) l -> 0 <= csum Zc (N.eqb v) l.
Proof.
  intros Hl. induction Hl as [|[w e] l He Hl IH]; simpl in *; [lia|]. destruct (N.eqb v w); lia.
Qed.

Section Ord.
Context (vo : vorder) (Hvo : vorder_ok vo).
Notation T := (fun _ : var => True).

Definition dok (l : list (var * Z)) : Prop := desc vo l /\ Forall (fun t => 0 < snd t) l.

Lemma dok_normal l : dok l -> normal T vo Zc l.
Proof.
  intros [H1 H2]. split; [|split; [exact H1|]].
  - apply Forall_forall. intros; exact I.
  - unfold nonzero. eapply Forall_impl; [|exact H2]. simpl. intros; lia.
Qed.
Lemma dok_cons t l : dok (t :: l) <->
  0 < snd t /\ Forall (fun u => vo (fst t) (fst u) = true) l /\ dok l.
Proof.
  unfold dok. rewrite (desc_cons vo). split.
  - intros [[H1 H2] H3]. inversion H3; subst. tauto.
  - intros (H1 & H2 & H3 & H4). repeat split; try constructor; tauto.
Qed.

Lemma pos_add l1 l2 : Forall (fun t => 0 < snd t) l1 -> Forall (fun t => 0 < snd t) l2 ->
  Forall (fun t => 0 < snd t) (pv_add vo N.eqb Zc l1 l2).
Proof.
  revert l2; induction l1 as [|t1 r1 IH1]; intros l2 H1 H2; [exact H2|].
  induction l2 as [|t2 r2 IH2]; [exact H1|].
  rewrite pv_add_cons. inversion H1; inversion H2; subst.
  destruct (vo (fst t2) (fst t1)); [constructor; auto|].
  destruct (N.eqb (fst t2) (fst t1)).
  - destruct (is0 _ _); [auto|]. constructor; [simpl; lia|]. auto.
  - constructor; auto.
Qed.
Lemma dok_add l1 l2 : dok l1 -> dok l2 -> dok (pv_add vo N.eqb Zc l1 l2).
Proof.
  intros H1 H2. split.
  - apply (normal_add T vo N.eqb Zc Hvo Neqb_iff Zc_ring); apply dok_normal; assumption.
  - apply pos_add; [apply H1|apply H2].
Qed.

(** ** The lexicographic comparison means what it should *)
Notation ex l v := (csum Zc (N.eqb v) l).

Lemma ex_before v l : Forall (fun u => vo v (fst u) = true) l -> ex l v = 0.
Proof.
  intros H. apply (csum_notin Zc). intros a Ha. apply in_map_iff in Ha as (u & <- & Hu).
  rewrite Forall_forall in H. specialize (H u Hu).
  destruct (N.eqb_spec v (fst u)) as [e|e]; [|reflexivity].
  cbv beta in H. rewrite <- e in H. rewrite (gt_irrefl _ _ Hvo v I) in H. discriminate.
Qed.
Lemma vo_trans a b c : vo a b = true -> vo b c = true -> vo a c = true.
Proof. apply (gt_trans _ _ Hvo a b c I I I). Qed.
Lemma vo_total a b : a = b \/ vo a b = true \/ vo b a = true.
Proof. apply (gt_total _ _ Hvo a b I I). Qed.
Lemma vo_irrefl a : vo a a = false.
Proof. apply (gt_irrefl _ _ Hvo a I). Qed.
Lemma Forall_vo_trans (a b : var) (l : list (var * Z)) : vo a b = true ->
  Forall (fun u => vo b (fst u) = true) l -> Forall (fun u => vo a (fst u) = true) l.
Proof. intros H. apply Forall_impl. intros u. apply vo_trans, H. Qed.

(** mathematical lexicographic comparison of exponent functions *)
Definition lex_spec (f g : var -> Z) : Prop :=
  exists v, g v < f v /\ forall w, vo w v = true -> f w = g w.

Notation cmp := (pv_comp vo N.eqb Zc Z.gtb).

Lemma cmp_lex l1 l2 : dok l1 -> dok l2 -> cmp l1 l2 = true ->
  lex_spec (fun v => ex l1 v) (fun v => ex l2 v).
Proof.
  revert l2; induction l1 as [|[a e] r1 IH]; intros [|[b f] r2] D1 D2 H; try discriminate.
  - exists a. apply dok_cons in D1 as (P1 & G1 & R1). cbn [csum fst snd] in *. rewrite N.eqb_refl.
    split; [rewrite (ex_before a r1 G1); simpl in *; lia|].
    intros w Hw. destruct (N.eqb_spec w a) as [->|n]; [rewrite vo_irrefl in Hw; discriminate|].
    simpl. apply ex_before. eapply Forall_vo_trans; [exact Hw|exact G1].
  - pose proof D1 as D1'. pose proof D2 as D2'.
    apply dok_cons in D1 as (P1 & G1 & R1). apply dok_cons in D2 as (P2 & G2 & R2).
    cbn [fst snd] in *. cbn [pv_comp fst snd] in H.
    destruct (N.eqb_spec a b) as [<-|n].
    + cbn [negb] in H. change (ceqb Zc e f) with (Z.eqb e f) in H.
      destruct (Z.eqb_spec e f) as [<-|n].
      * cbn [negb] in H. destruct (IH r2 R1 R2 H) as (v & Hv & Hw). exists v.
        cbn [csum fst]. split.
        -- destruct (N.eqb v a); simpl; lia.
        -- intros w Hwv. specialize (Hw w Hwv). destruct (N.eqb w a); simpl; lia.
      * cbn [negb] in H. exists a. cbn [csum fst]. rewrite N.eqb_refl.
        rewrite (ex_before a r1 G1), (ex_before a r2 G2). split; [simpl; lia|].
        intros w Hw. destruct (N.eqb_spec w a) as [->|n']; [rewrite vo_irrefl in Hw; discriminate|].
        rewrite !ex_before; [reflexivity| |]; eapply Forall_vo_trans; eassumption.
    + cbn [negb] in H. exists a. cbn [csum fst]. rewrite N.eqb_refl.
      destruct (N.eqb_spec a b) as [|_]; [contradiction|].
      rewrite (ex_before a r1 G1), (ex_before a r2) by (eapply Forall_vo_trans; eassumption).
      split; [simpl; lia|]. intros w Hw.
      destruct (N.eqb_spec w a) as [->|n']; [rewrite vo_irrefl in Hw; discriminate|].
      destruct (N.eqb_spec w b) as [->|n2].
      { exfalso. pose proof (vo_trans _ _ _ Hw H) as C. rewrite vo_irrefl in C. discriminate. }
      rewrite !ex_before; [reflexivity| |].
      * apply (Forall_vo_trans w b); [exact (vo_trans _ _ _ Hw H)|exact G2].
      * apply (Forall_vo_trans w a); [exact Hw|exact G1].
Qed.

Lemma lex_spec_asym f g : lex_spec f g -> lex_spec g f -> False.
Proof.
  intros (v & H1 & H2) (w & H3 & H4).
  destruct (vo_total v w) as [->|[e|e]]; [lia| |].
  - specialize (H4 v e). lia.
  - specialize (H2 w e). lia.
Qed.

Lemma cmp_total l1 l2 : l1 = l2 \/ cmp l1 l2 = true \/ cmp l2 l1 = true.
Proof.
  revert l2; induction l1 as [|[a e] r1 IH]; intros [|[b f] r2]; cbn [pv_comp fst snd]; try tauto.
  destruct (N.eqb_spec a b) as [<-|n].
  - rewrite N.eqb_refl. cbn [negb]. change (ceqb Zc) with Z.eqb.
    destruct (Z.eqb_spec e f) as [<-|n].
    + rewrite Z.eqb_refl. cbn [negb]. destruct (IH r2) as [->|H]; tauto.
    + destruct (Z.eqb_spec f e) as [|_]; [congruence|]. cbn [negb]. right. lia.
  - destruct (N.eqb_spec b a) as [|_]; [congruence|]. cbn [negb].
    destruct (vo_total a b) as [e'|H]; [contradiction|tauto].
Qed.
Lemma cmp_irrefl l : cmp l l = false.
Proof.
  induction l as [|[a e] r IH]; [reflexivity|]. cbn [pv_comp fst snd].
  rewrite N.eqb_refl. cbn [negb]. change (ceqb Zc) with Z.eqb. rewrite Z.eqb_refl. exact IH.
Qed.
Lemma cmp_trans l1 l2 l3 : cmp l1 l2 = true -> cmp l2 l3 = true -> cmp l1 l3 = true.
Proof.
  revert l2 l3; induction l1 as [|[a e] r1 IH]; intros [|[b f] r2] [|[c g] r3];
    cbn [pv_comp fst snd]; try discriminate; try reflexivity.
  change (ceqb Zc) with Z.eqb.
  destruct (N.eqb_spec a b) as [<-|n1]; cbn [negb].
  - destruct (N.eqb_spec a c) as [<-|n2]; cbn [negb].
    + destruct (Z.eqb_spec e f), (Z.eqb_spec f g), (Z.eqb_spec e g); cbn [negb]; try lia.
      intros H1 H2. exact (IH _ _ H1 H2).
    + intros _ H. exact H.
  - destruct (N.eqb_spec b c) as [<-|n2]; cbn [negb].
    + destruct (N.eqb_spec a b) as [|_]; [congruence|]. cbn [negb]. intros H _. exact H.
    + intros H1 H2. pose proof (vo_trans _ _ _ H1 H2) as H3.
      destruct (N.eqb_spec a c) as [->|n3]; cbn [negb]; [|exact H3].
      rewrite vo_irrefl in H3. discriminate.
Qed.

Lemma cmp_lex_iff l1 l2 : dok l1 -> dok l2 ->
  (cmp l1 l2 = true <-> lex_spec (fun v => ex l1 v) (fun v => ex l2 v)).
Proof.
  intros D1 D2. split; [apply cmp_lex; assumption|]. intros H.
  destruct (cmp_total l1 l2) as [->|[E|E]]; [|exact E|].
  - exfalso. destruct H as (v & H & _). lia.
  - exfalso. apply (lex_spec_asym _ _ H). apply cmp_lex; assumption.
Qed.

(** ** Monomial-level statements *)
Lemma mok_dok m : mok vo m -> dok (md m).
Proof. intros (H1 & H2 & _). split; assumption. Qed.
Lemma mok_iff m : mok vo m <-> dok (md m) /\ mg m = deg_sum (md m).
Proof. unfold mok, dok. tauto. Qed.

Lemma mono_eqb_iff m1 m2 : mono_eqb m1 m2 = true <-> m1 = m2.
Proof.
  unfold mono_eqb. rewrite andb_true_iff, (pv_equal_to_spec N.eqb Zc Neqb_iff Zc_ring), Z.eqb_eq.
  destruct m1, m2; simpl. split; [intros [-> ->]; reflexivity|intros H; injection H as -> ->; tauto].
Qed.

Lemma lex_gt_spec m1 m2 : mok vo m1 -> mok vo m2 ->
  (lex_gt vo m1 m2 = true <-> lex_spec (zexp m1) (zexp m2)).
Proof. intros H1 H2. apply cmp_lex_iff; apply mok_dok; assumption. Qed.
Lemma grlex_gt_spec m1 m2 : mok vo m1 -> mok vo m2 ->
  (grlex_gt vo m1 m2 = true <->
     deg_sum (md m1) > deg_sum (md m2) \/
     deg_sum (md m1) = deg_sum (md m2) /\ lex_spec (zexp m1) (zexp m2)).
Proof.
  intros H1 H2. unfold grlex_gt.
  rewrite orb_true_iff, andb_true_iff, Z.eqb_eq, Z.gtb_lt.
  rewrite (cmp_lex_iff _ _ (mok_dok _ H1) (mok_dok _ H2)).
  destruct H1 as (_ & _ & ->), H2 as (_ & _ & ->).
  unfold zexp. intuition lia.
Qed.

Lemma mok_eq m1 m2 : mok vo m1 -> mok vo m2 -> md m1 = md m2 -> m1 = m2.
Proof.
  intros (_ & _ & H1) (_ & _ & H2) E. destruct m1, m2; simpl in *. subst. reflexivity.
Qed.

Lemma lex_order : order_on (mok vo) (lex_gt vo).
Proof.
  split; unfold lex_gt.
  - intros a _. apply cmp_irrefl.
  - intros a b c _ _ _. apply cmp_trans.
  - intros a b Ha Hb. destruct (cmp_total (md a) (md b)) as [E|E]; [left; apply mok_eq; assumption|tauto].
Qed.
Lemma grlex_order : order_on (mok vo) (grlex_gt vo).
Proof.
  split; unfold grlex_gt.
  - intros a _. rewrite cmp_irrefl. lia.
  - intros a b c _ _ _ H1 H2.
    pose proof (cmp_trans (md a) (md b) (md c)) as Ht.
    destruct (cmp (md a) (md b)), (cmp (md b) (md c)), (cmp (md a) (md c));
      try (specialize (Ht eq_refl eq_refl); discriminate); lia.
  - intros a b Ha Hb. destruct (Z.lt_trichotomy (mg a) (mg b)) as [H|[H|H]]; [lia| |lia].
    destruct (cmp_total (md a) (md b)) as [E|[E|E]].
    + left; apply mok_eq; assumption.
    + rewrite E. lia.
    + rewrite E. lia.
Qed.

(** ** Product *)
Lemma zexp_mul m1 m2 v : zexp (mono_mul vo m1 m2) v = zexp m1 v + zexp m2 v.
Proof. apply (csum_add vo N.eqb Zc Neqb_iff Zc_ring). Qed.
Lemma deg_sum_add l1 l2 : deg_sum (pv_add vo N.eqb Zc l1 l2) = deg_sum l1 + deg_sum l2.
Proof. rewrite <- !csumZ_all. apply (csum_add vo N.eqb Zc Neqb_iff Zc_ring). Qed.
Lemma mok_mul m1 m2 : mok vo m1 -> mok vo m2 -> mok vo (mono_mul vo m1 m2).
Proof.
  rewrite !mok_iff. intros [H1 E1] [H2 E2]. split; [apply dok_add; assumption|].
  simpl. rewrite deg_sum_add. lia.
Qed.

Lemma mok_ext m1 m2 : mok vo m1 -> mok vo m2 -> (forall v, zexp m1 v = zexp m2 v) -> m1 = m2.
Proof.
  intros H1 H2 H. apply mok_eq; [assumption|assumption|].
  apply (normal_unique T vo N.eqb Zc Hvo Neqb_iff Zc_ring);
    [apply dok_normal, mok_dok, H1|apply dok_normal, mok_dok, H2|].
  intros a _. apply H.
Qed.

Lemma mono_mul_comm m1 m2 : mok vo m1 -> mok vo m2 -> mono_mul vo m1 m2 = mono_mul vo m2 m1.
Proof.
  intros H1 H2. apply mok_ext; [apply mok_mul|apply mok_mul|]; try assumption.
  intros v. rewrite !zexp_mul. lia.
Qed.
Lemma mono_mul_assoc m1 m2 m3 : mok vo m1 -> mok vo m2 -> mok vo m3 ->
  mono_mul vo m1 (mono_mul vo m2 m3) = mono_mul vo (mono_mul vo m1 m2) m3.
Proof.
  intros H1 H2 H3. apply mok_ext; repeat apply mok_mul; try assumption.
  intros v. rewrite !zexp_mul. lia.
Qed.
Lemma mok_1 : mok vo mono1.
Proof. split; [constructor|]. split; [constructor|reflexivity]. Qed.
Lemma mok_var v : mok vo (mono_var v).
Proof.
  split; [apply desc_cons; split; constructor|]. split; [repeat constructor|reflexivity].
Qed.
Lemma mono_mul_1_r m : mok vo m -> mono_mul vo m mono1 = m.
Proof.
  intros H. apply mok_ext; [apply mok_mul; [assumption|apply mok_1]|assumption|].
  intros v. rewrite zexp_mul. unfold zexp at 2. simpl. lia.
Qed.

Lemma lex_mul a b m : mok vo a -> mok vo b -> mok vo m ->
  lex_gt vo a b = true -> lex_gt vo (mono_mul vo a m) (mono_mul vo b m) = true.
Proof.
  intros Ha Hb Hm. rewrite !lex_gt_spec by (try apply mok_mul; assumption).
  intros (v & H1 & H2). exists v. rewrite !zexp_mul. split; [lia|].
  intros w Hw. rewrite !zexp_mul, (H2 w Hw). reflexivity.
Qed.
Lemma grlex_mul a b m : mok vo a -> mok vo b -> mok vo m ->
  grlex_gt vo a b = true -> grlex_gt vo (mono_mul vo a m) (mono_mul vo b m) = true.
Proof.
  intros Ha Hb Hm. rewrite !grlex_gt_spec by (try apply mok_mul; assumption).
  cbn [mono_mul md]. rewrite !deg_sum_add.
  intros [H|[E (v & H1 & H2)]]; [left; lia|right]. split; [lia|].
  exists v. rewrite !zexp_mul. split; [lia|].
  intros w Hw. rewrite !zexp_mul, (H2 w Hw). reflexivity.
Qed.

(** 1 is the least monomial. *)
Lemma lex_1_least m : mok vo m -> m <> mono1 -> lex_gt vo m mono1 = true.
Proof.
  intros H Hn. unfold lex_gt. destruct (md m) as [|t r] eqn:E; [|reflexivity].
  exfalso. apply Hn. apply mok_eq; [assumption|apply mok_1|exact E].
Qed.
Lemma deg_sum_pos l : Forall (fun t : var * Z => 0 < snd t) l -> l <> [] -> 0 < deg_sum l.
Proof.
  intros H Hn. destruct H as [|t l Ht H]; [congruence|]. simpl.
  assert (0 <= deg_sum l); [|lia]. clear -H. induction H as [|u l Hu H IH]; simpl in *; lia.
Qed.
Lemma grlex_1_least m : mok vo m -> m <> mono1 -> grlex_gt vo m mono1 = true.
Proof.
  intros H Hn. unfold grlex_gt. destruct H as (H1 & H2 & H3). simpl. rewrite H3.
  assert (0 < deg_sum (md m)); [|lia]. apply deg_sum_pos; [assumption|].
  intros E. apply Hn. apply mok_eq; [repeat split; assumption|apply mok_1|exact E].
Qed.

(** ** Quotient, divisibility, lcm *)
Lemma zexp_div m1 m2 v : zexp (mono_div vo m1 m2) v = zexp m1 v - zexp m2 v.
Proof. apply (csum_sub vo N.eqb Zc Neqb_iff Zc_ring). Qed.
Lemma deg_sum_sub l1 l2 : deg_sum (pv_sub vo N.eqb Zc l1 l2) = deg_sum l1 - deg_sum l2.
Proof. rewrite <- !csumZ_all. apply (csum_sub vo N.eqb Zc Neqb_iff Zc_ring). Qed.
Lemma normal_div l1 l2 : dok l1 -> dok l2 -> normal T vo Zc (pv_sub vo N.eqb Zc l1 l2).
Proof.
  intros. apply (normal_sub T vo N.eqb Zc Hvo Neqb_iff Zc_ring); apply dok_normal; assumption.
Qed.
Lemma zexp_nonneg m v : mok vo m -> 0 <= zexp m v.
Proof. intros (_ & H & _). apply exp_pos_nonneg, H. Qed.

(** [is_divexact] decides divisibility and then delivers the (well-formed) quotient. *)
Lemma is_divexact_spec m1 m2 : mok vo m1 -> mok vo m2 ->
  (fst (is_divexact vo m1 m2) = true <-> forall v, zexp m2 v <= zexp m1 v) /\
  (fst (is_divexact vo m1 m2) = true ->
     mok vo (snd (is_divexact vo m1 m2)) /\
     mono_mul vo (snd (is_divexact vo m1 m2)) m2 = m1).
Proof.
  intros H1 H2. unfold is_divexact. cbn [fst snd].
  set (op := mono_div vo m1 m2).
  assert (Hn : normal T vo Zc (md op)) by (apply normal_div; apply mok_dok; assumption).
  assert (Hg : mg op = deg_sum (md op)).
  { unfold op, mono_div. simpl. rewrite deg_sum_sub.
    destruct H1 as (_ & _ & ->), H2 as (_ & _ & ->). reflexivity. }
  assert (Hx : forall v, zexp op v = zexp m1 v - zexp m2 v) by (intros v; apply zexp_div).
  assert (Hok : (if mg op <? 0 then false else forallb (fun t => negb (snd t <? 0)) (md op)) = true
                -> mok vo op).
  { intros H. destruct (mg op <? 0); [discriminate|]. rewrite forallb_forall in H.
    split; [apply Hn|]. split; [|exact Hg].
    apply Forall_forall. intros t Ht. specialize (H t Ht).
    destruct Hn as (_ & _ & Hz). unfold nonzero in Hz. rewrite Forall_forall in Hz.
    specialize (Hz t Ht). simpl in Hz. lia. }
  assert (Hiff : (if mg op <? 0 then false else forallb (fun t => negb (snd t <? 0)) (md op)) = true
                <-> forall v, zexp m2 v <= zexp m1 v).
  { split.
    - intros H v. specialize (Hok H). pose proof (zexp_nonneg op v Hok). rewrite Hx in *. lia.
    - intros H.
      assert (Hp : Forall (fun t => 0 < snd t) (md op)).
      { apply Forall_forall. intros t Ht.
        destruct Hn as (A & D & Hz). unfold nonzero in Hz. rewrite Forall_forall in Hz.
        specialize (Hz t Ht).
        pose proof (csum_desc_in T vo N.eqb Zc Hvo Neqb_iff Zc_ring t (md op) A D Ht) as E.
        specialize (Hx (fst t)). unfold zexp in Hx at 1. rewrite E in Hx.
        specialize (H (fst t)). simpl in Hz. lia. }
      destruct (Z.ltb_spec (mg op) 0) as [C|C].
      + exfalso. rewrite Hg in C. clear -C Hp. induction Hp as [|t l Ht Hl IH]; simpl in *; lia.
      + apply forallb_forall. rewrite Forall_forall in Hp. intros t Ht. specialize (Hp t Ht). lia. }
  split; [exact Hiff|]. intros H. split; [apply Hok, H|].
  apply mok_ext; [apply mok_mul; [apply Hok, H|assumption]|assumption|].
  intros v. rewrite zexp_mul, Hx. lia.
Qed.

Lemma lcm_merge_cons t1 r1 t2 r2 :
  lcm_merge vo (t1 :: r1) (t2 :: r2) =
    if vo (fst t1) (fst t2) then t1 :: lcm_merge vo r1 (t2 :: r2)
    else if N.eqb (fst t1) (fst t2)
         then (fst t1, Z.max (snd t1) (snd t2)) :: lcm_merge vo r1 r2
         else t2 :: lcm_merge vo (t1 :: r1) r2.
Proof. reflexivity. Qed.
Lemma lcm_merge_keys (P : var -> Prop) l1 l2 :
  Forall (fun t => P (fst t)) l1 -> Forall (fun t => P (fst t)) l2 ->
  Forall (fun t => P (fst t)) (lcm_merge vo l1 l2).
Proof.
  revert l2; induction l1 as [|t1 r1 IH1]; intros l2 H1 H2; [exact H2|].
  induction l2 as [|t2 r2 IH2]; [exact H1|].
  rewrite lcm_merge_cons. inversion H1; inversion H2; subst.
  destruct (vo _ _); [constructor; auto|]. destruct (N.eqb _ _); constructor; auto.
Qed.
Lemma ex_cons t r v : ex (t :: r) v = (if N.eqb v (fst t) then snd t else 0) + ex r v.
Proof. destruct t as [a e]. simpl. destruct (N.eqb v a); lia. Qed.
Lemma lcm_merge_spec l1 l2 : dok l1 -> dok l2 ->
  dok (lcm_merge vo l1 l2) /\ forall v, ex (lcm_merge vo l1 l2) v = Z.max (ex l1 v) (ex l2 v).
Proof.
  revert l2; induction l1 as [|t1 r1 IH1]; intros l2 D1 D2.
  - split; [exact D2|]. intros v. simpl. pose proof (exp_pos_nonneg l2 v (proj2 D2)). lia.
  - induction l2 as [|t2 r2 IH2].
    + split; [exact D1|]. intros v. pose proof (exp_pos_nonneg _ v (proj2 D1)) as P.
      change (lcm_merge vo (t1 :: r1) []) with (t1 :: r1). change (ex [] v) with 0. lia.
    + rewrite lcm_merge_cons. pose proof D1 as D1'. pose proof D2 as D2'.
      apply dok_cons in D1 as (P1 & G1 & R1). apply dok_cons in D2 as (P2 & G2 & R2).
      destruct (vo (fst t1) (fst t2)) eqn:E.
      * destruct (IH1 _ R1 D2') as [Hd He].
        assert (G : Forall (fun u => vo (fst t1) (fst u) = true) (t2 :: r2)).
        { constructor; [exact E|]. apply (Forall_vo_trans _ (fst t2)); [exact E|exact G2]. }
        split.
        -- apply dok_cons. repeat split; try assumption; try apply Hd.
           apply (lcm_merge_keys (fun a => vo (fst t1) a = true)); assumption.
        -- intros v. rewrite (ex_cons t1), (He v), (ex_cons t1 r1).
           destruct (N.eqb_spec v (fst t1)) as [->|n]; [|reflexivity].
           rewrite (ex_before _ _ G1), (ex_before _ _ G). lia.
      * destruct (N.eqb_spec (fst t1) (fst t2)) as [e|n].
        -- destruct (IH1 _ R1 R2) as [Hd He]. split.
           ++ apply dok_cons. cbn [fst snd]. repeat split; try apply Hd; [lia|].
              apply (lcm_merge_keys (fun a => vo (fst t1) a = true)); [assumption|].
              rewrite e. assumption.
           ++ intros v. rewrite !ex_cons, (He v). cbn [fst snd]. rewrite <- e in *.
              destruct (N.eqb_spec v (fst t1)) as [->|n]; [|reflexivity].
              rewrite (ex_before _ _ G1), (ex_before _ _ G2). lia.
        -- assert (E' : vo (fst t2) (fst t1) = true).
           { destruct (vo_total (fst t1) (fst t2)) as [c|[c|c]]; congruence. }
           assert (G : Forall (fun u => vo (fst t2) (fst u) = true) (t1 :: r1)).
           { constructor; [exact E'|]. apply (Forall_vo_trans _ (fst t1)); [exact E'|exact G1]. }
           destruct (IH2 R2) as [Hd He]. split.
           ++ apply dok_cons. repeat split; try assumption; try apply Hd.
              apply (lcm_merge_keys (fun a => vo (fst t2) a = true)); assumption.
           ++ intros v. rewrite (ex_cons t2), (He v), (ex_cons t2 r2).
              destruct (N.eqb_spec v (fst t2)) as [->|n']; [|reflexivity].
              rewrite (ex_before _ _ G2), (ex_before _ _ G). lia.
Qed.
Lemma mok_re_deg l : dok l -> mok vo (re_deg l).
Proof. intros H. apply mok_iff. split; [exact H|reflexivity]. Qed.
Lemma mono_lcm_spec m1 m2 : mok vo m1 -> mok vo m2 ->
  mok vo (mono_lcm vo m1 m2) /\ forall v, zexp (mono_lcm vo m1 m2) v = Z.max (zexp m1 v) (zexp m2 v).
Proof.
  intros H1 H2. unfold mono_lcm.
  destruct (md m1) as [|t1 r1] eqn:E1.
  - split; [exact H2|]. intros v. unfold zexp at 2. rewrite E1. simpl.
    pose proof (zexp_nonneg m2 v H2). lia.
  - destruct (md m2) as [|t2 r2] eqn:E2.
    + split; [exact H1|]. intros v. unfold zexp at 3. rewrite E2. simpl.
      pose proof (zexp_nonneg m1 v H1). lia.
    + rewrite <- E1, <- E2.
      destruct (lcm_merge_spec (md m1) (md m2) (mok_dok _ H1) (mok_dok _ H2)) as [Hd He].
      split; [apply mok_re_deg, Hd|]. intros v. apply He.
Qed.

Lemma mok_mono_deg m v : mok vo m -> mono_deg m v = zexp m v.
Proof.
  intros (H & _). symmetry. apply csumZ_deg_find. unfold desc in H.
  induction H as [|a l Hs IH Hl]; constructor; [|exact IH].
  intros Hin. rewrite Forall_forall in Hl. specialize (Hl a Hin). rewrite vo_irrefl in Hl. discriminate.
Qed.

(** ** Relation with the specification *)
Lemma exp_sm_mok m v : mok vo m -> exp (sm m) v = Z.to_N (zexp m v).
Proof. intros (_ & H & _). apply exp_sm, H. Qed.
Lemma sm_inj m1 m2 : mok vo m1 -> mok vo m2 -> (meq (sm m1) (sm m2) <-> m1 = m2).
Proof.
  intros H1 H2. split; [|intros ->; reflexivity]. intros H. apply mok_ext; try assumption.
  intros v. specialize (H v). rewrite !exp_sm_mok in H by assumption.
  pose proof (zexp_nonneg m1 v H1). pose proof (zexp_nonneg m2 v H2). lia.
Qed.
Lemma sm_mul m1 m2 : mok vo m1 -> mok vo m2 -> meq (sm (mono_mul vo m1 m2)) (sm m1 ++ sm m2).
Proof.
  intros H1 H2 v. rewrite exp_app, !exp_sm_mok by (try apply mok_mul; assumption).
  rewrite zexp_mul. pose proof (zexp_nonneg m1 v H1). pose proof (zexp_nonneg m2 v H2). lia.
Qed.
Lemma sm_divides m1 m2 : mok vo m1 -> mok vo m2 ->
  (mdivides (sm m2) (sm m1) <-> forall v, zexp m2 v <= zexp m1 v).
Proof.
  intros H1 H2. unfold mdivides. split; intros H v; specialize (H v);
    pose proof (zexp_nonneg m1 v H1); pose proof (zexp_nonneg m2 v H2);
    rewrite !exp_sm_mok in * by assumption; lia.
Qed.

Lemma mono_pow_spec m n : mok vo m -> 0 <= n ->
  mok vo (mono_pow m n) /\ forall v, zexp (mono_pow m n) v = n * zexp m v.
Proof.
  intros (Hd & Hp & Hg) Hn. unfold mono_pow. destruct (Z.eqb_spec n 0) as [->|Hn0].
  - split; [apply mok_1|]. intros v. unfold zexp. simpl. lia.
  - split.
    + split; [|split; [|reflexivity]]; cbn [md re_deg].
      * unfold desc in *. rewrite map_map. exact Hd.
      * rewrite Forall_map. eapply Forall_impl; [|exact Hp]. intros t Ht. cbn [snd]. apply Z.mul_pos_pos; [exact Ht|lia].
    + intros v. unfold zexp. cbn [md re_deg]. clear. induction (md m) as [|[w e] l IH]; cbn [map csum fst snd]; [change (c0 Zc) with 0; lia|].
      rewrite IH. change (cadd Zc) with Z.add. destruct (N.eqb v w); ring.
Qed.
End Ord.

Section RawPoly.
Context {C : Type} (K : coefs C) (HK : ring_ok K).

Lemma coef_raw p s : coef K (raw p) s = csum K (fun m => meqb (sm m) s) p.
Proof. induction p as [|[m c] p IH]; simpl; [reflexivity|]. rewrite IH. reflexivity. Qed.

Lemma raw_app p q : raw (p ++ q) = @raw C p ++ raw q.
Proof. apply map_app. Qed.

Section WithOrd.
Context (vo : vorder) (Hvo : vorder_ok vo) (gt : mono -> mono -> bool) (HO : order_on (mok vo) gt).

Lemma csum_coef p a : all_ok (mok vo) p -> mok vo a ->
  csum K (mono_eqb a) p = coef K (raw p) (sm a).
Proof.
  intros Hp Ha. rewrite coef_raw. induction Hp as [|[m c] p Hm Hp IH]; simpl in *; [reflexivity|].
  replace (mono_eqb a m) with (meqb (sm m) (sm a)).
  - rewrite IH. reflexivity.
  - destruct (meqb_spec (sm m) (sm a)) as [E|E].
    + apply (sm_inj vo Hvo) in E; [|assumption|assumption]. subst. symmetry. apply mono_eqb_iff. reflexivity.
    + symmetry. destruct (mono_eqb a m) eqn:E'; [|reflexivity].
      apply mono_eqb_iff in E'. subst. exfalso. apply E. reflexivity.
Qed.

(** Normal polynomials are equal iff mathematically equal. *)
Lemma normal_req p q : normal (mok vo) gt K p -> normal (mok vo) gt K q ->
  (req K (raw p) (raw q) <-> p = q).
Proof.
  intros Hp Hq. split; [|intros ->; reflexivity]. intros H.
  apply (normal_unique (mok vo) gt mono_eqb K HO mono_eqb_iff HK); [assumption|assumption|].
  intros a Ha. rewrite !csum_coef; [apply H|apply Hq|exact Ha|apply Hp|exact Ha].
Qed.

(** From agreement of all sums over sets of monomials to mathematical equality. *)
Lemma csum_req (p q : poly C) : (forall phi, csum K phi p = csum K phi q) -> req K (raw p) (raw q).
Proof. intros H s. rewrite !coef_raw. apply H. Qed.
End WithOrd.
End RawPoly.
