(** * The instances satisfy the laws; generic facts about [graw]. *)
From Coq Require Import Ring Sorting.Sorted Permutation Setoid Morphisms Wellfounded.
From Verif Require Import Prelude Coef Spec SpecProofs OrderSpec PairVec PairVecProofs Mono MonoProofs MonoStruct.

(** ** Well-founded lexicographic order on vectors of one length *)
Inductive lexlt : list nat -> list nat -> Prop :=
| lexlt_hd x y s t : x < y -> lexlt (x :: s) (y :: t)
| lexlt_tl x s t : lexlt s t -> lexlt (x :: s) (x :: t).
Definition lexn (n : nat) (s t : list nat) : Prop := length s = n /\ length t = n /\ lexlt s t.
Lemma lexn_acc n : forall l, length l = n -> Acc (lexn n) l.
Proof.
  induction n as [|n IH].
  - intros l Hl. constructor. intros s (Hs & _ & H). destruct l; [|discriminate]. inversion H.
  - assert (G : forall x t, length t = n -> Acc (lexn (S n)) (x :: t)).
    { induction x as [x IHx] using (well_founded_induction lt_wf).
      intros t Ht. assert (At : Acc (lexn n) t) by (apply IH, Ht). revert Ht. induction At as [t _ IHt]. intros Ht.
      constructor. intros s (Hs & _ & H). destruct s as [|y s]; [discriminate|]. simpl in Hs.
      inversion H; subst.
      - apply IHx; [assumption|lia].
      - apply IHt; [|lia]. split; [lia|]. split; [lia|]. assumption. }
    intros l Hl. destruct l as [|x t]; [discriminate|]. apply G. simpl in Hl. lia.
Qed.
Lemma lexn_wf n : well_founded (lexn n).
Proof.
  intros l. destruct (Nat.eq_dec (length l) n) as [e|e]; [apply lexn_acc, e|].
  constructor. intros s (_ & H & _). contradiction.
Qed.
Lemma lexlt_app s t u w x y : s = t -> x < y -> lexlt (s ++ x :: u) (t ++ y :: w).
Proof. intros -> H. induction t; simpl; constructor; assumption. Qed.

(** every finite set of variables is contained in a sorted one *)
Section SortVars.
Variable vo : vorder.
Hypothesis Hvo : vorder_ok vo.
Lemma vins v l : StronglySorted (fun a b => vo a b = true) l ->
  exists l', StronglySorted (fun a b => vo a b = true) l' /\ In v l' /\ incl l l' /\ incl l' (v :: l).
Proof.
  induction 1 as [|w l Hs IH Hw].
  - exists [v]. split; [constructor; constructor|]. split; [left; reflexivity|]. split; intros x [].
    + left; assumption.
    + contradiction.
  - destruct (gt_total _ _ Hvo v w I I) as [->|[E|E]].
    + exists (w :: l). split; [constructor; assumption|]. split; [left; reflexivity|]. split; [apply incl_refl|].
      intros x Hx. right. exact Hx.
    + exists (v :: w :: l). split; [|split; [left; reflexivity|split; [intros x Hx; right; exact Hx|apply incl_refl]]].
      constructor; [constructor; assumption|]. constructor; [exact E|].
      eapply Forall_impl; [|exact Hw]. intros x Hx. simpl in Hx. apply (gt_trans _ _ Hvo v w x I I I E Hx).
    + destruct IH as (l' & S' & In' & Inc & Inc'). exists (w :: l'). split.
      * constructor; [exact S'|]. apply Forall_forall. intros x Hx. destruct (Inc' x Hx) as [<-|Hx']; [exact E|].
        rewrite Forall_forall in Hw. apply Hw, Hx'.
      * split; [right; exact In'|]. split.
        -- intros x [->|Hx]; [left; reflexivity|right; apply Inc, Hx].
        -- intros x [->|Hx]; [right; left; reflexivity|]. destruct (Inc' x Hx) as [<-|Hx']; [left; reflexivity|].
           right; right; exact Hx'.
Qed.
Lemma vsort vs : exists l, StronglySorted (fun a b => vo a b = true) l /\ incl vs l.
Proof.
  induction vs as [|v vs (l & S & I')]; [exists []; split; [constructor|intros x []]|].
  destruct (vins v l S) as (l' & S' & In' & Inc & _). exists l'. split; [exact S'|].
  intros x [<-|Hx]; [exact In'|apply Inc, I', Hx].
Qed.

Lemma sorted_split (l : list N) v : StronglySorted (fun a b => vo a b = true) l -> In v l ->
  exists l1 l2, l = l1 ++ v :: l2 /\ Forall (fun w => vo w v = true) l1.
Proof.
  induction 1 as [|w l Hs IH Hw]; [intros []|]. intros [->|Hin].
  - exists [], l. split; [reflexivity|constructor].
  - destruct (IH Hin) as (l1 & l2 & -> & F). exists (w :: l1), l2. split; [reflexivity|].
    constructor; [|exact F]. rewrite Forall_forall in Hw. apply Hw, Hin.
Qed.

Definition vec (l : list N) (m : mono) : list nat := map (fun v => Z.to_nat (zexp m v)) l.

Lemma lex_spec_vec l vs a b : StronglySorted (fun a b => vo a b = true) l -> incl vs l ->
  mok vo a -> mok vo b -> msup vs (sm b) -> lex_spec vo (zexp b) (zexp a) -> lexlt (vec l a) (vec l b).
Proof.
  intros Hs Hi Ha Hb Hsup (v & Hv & Heq).
  pose proof (zexp_nonneg vo a v Ha) as Na.
  assert (Hin : In v l).
  { apply Hi, Hsup. rewrite (exp_sm_mok vo b v Hb). lia. }
  destruct (sorted_split l v Hs Hin) as (l1 & l2 & -> & F).
  unfold vec. rewrite !map_app. cbn [map]. apply lexlt_app; [|lia].
  apply map_ext_in. intros w Hw. rewrite Forall_forall in F. rewrite (Heq w (F w Hw)). reflexivity.
Qed.

Lemma lex_wf vs : well_founded (fun a b =>
      mok vo a /\ mok vo b /\ msup vs (sm a) /\ msup vs (sm b) /\ lex_gt vo b a = true).
Proof.
  destruct (vsort vs) as (l & Hs & Hi).
  eapply (wf_incl _ _ (fun a b => lexn (length l) (vec l a) (vec l b))).
  - intros a b (Ha & Hb & _ & Sb & G). split; [apply map_length|]. split; [apply map_length|].
    apply (lex_spec_vec l vs); try assumption. apply (lex_gt_spec vo Hvo); assumption.
  - apply (wf_inverse_image _ _ _ (vec l)), lexn_wf.
Qed.
Lemma grlex_wf vs : well_founded (fun a b =>
      mok vo a /\ mok vo b /\ msup vs (sm a) /\ msup vs (sm b) /\ grlex_gt vo b a = true).
Proof.
  destruct (vsort vs) as (l & Hs & Hi).
  set (f := fun m => Z.to_nat (deg_sum (md m)) :: vec l m).
  eapply (wf_incl _ _ (fun a b => lexn (S (length l)) (f a) (f b))).
  - intros a b (Ha & Hb & _ & Sb & G).
    split; [simpl; f_equal; apply map_length|]. split; [simpl; f_equal; apply map_length|].
    apply (grlex_gt_spec vo Hvo) in G; [|assumption|assumption]. unfold f.
    assert (Hp : forall m, mok vo m -> (0 <= deg_sum (md m))%Z).
    { intros m (_ & Hf & _). clear - Hf. induction Hf as [|t r H _ IH]; simpl in *; lia. }
    pose proof (Hp a Ha). pose proof (Hp b Hb).
    destruct G as [G|[E G]]; [apply lexlt_hd; lia|]. rewrite E. apply lexlt_tl.
    apply (lex_spec_vec l vs); assumption.
  - apply (wf_inverse_image _ _ _ f), lexn_wf.
Qed.

Lemma mono_div_spec a b : mok vo a -> mok vo b ->
  (fst (is_divexact vo a b) = true <-> mdivides (sm b) (sm a)) /\
  (fst (is_divexact vo a b) = true -> mok vo (snd (is_divexact vo a b)) /\
     mono_mul vo (snd (is_divexact vo a b)) b = a).
Proof.
  intros Ha Hb. destruct (is_divexact_spec vo Hvo a b Ha Hb) as [H1 H2]. split; [|exact H2].
  rewrite H1. symmetry. apply (sm_divides vo); assumption.
Qed.

Theorem lexS_ok : monos_ok (lexS vo) (mok vo) sm.
Proof.
  split; cbn [lexS m_gt m_eq m_mul m_one m_div].
  - apply lex_order, Hvo.
  - apply mono_eqb_iff.
  - apply mok_mul, Hvo.
  - apply mok_1.
  - intros a b Ha Hb. apply (sm_inj vo Hvo a b Ha Hb).
  - apply sm_mul, Hvo.
  - intros v. reflexivity.
  - intros a b c Ha Hb Hc. apply (lex_mul vo Hvo); assumption.
  - intros a Ha Hn. apply lex_1_least; assumption.
  - apply mono_div_spec.
  - apply lex_wf.
Qed.
Theorem grlexS_ok : monos_ok (grlexS vo) (mok vo) sm.
Proof.
  split; cbn [grlexS m_gt m_eq m_mul m_one m_div].
  - apply grlex_order, Hvo.
  - apply mono_eqb_iff.
  - apply mok_mul, Hvo.
  - apply mok_1.
  - intros a b Ha Hb. apply (sm_inj vo Hvo a b Ha Hb).
  - apply sm_mul, Hvo.
  - intros v. reflexivity.
  - intros a b c Ha Hb Hc. apply (grlex_mul vo Hvo); assumption.
  - intros a Ha Hn. apply grlex_1_least; assumption.
  - apply mono_div_spec.
  - apply grlex_wf.
Qed.
End SortVars.

Lemma exp_usm e v : exp (usm e) v = if N.eqb 0 v then Z.to_N e else 0%N.
Proof. unfold usm. simpl. destruct v; simpl; lia. Qed.

Theorem uniS_ok : monos_ok uniS uok usm.
Proof.
  split; cbn [uniS m_gt m_eq m_mul m_one m_div]; unfold uok.
  - split; intros; lia.
  - intros a b. apply Z.eqb_eq.
  - lia.
  - lia.
  - intros a b Ha Hb H. specialize (H 0%N). rewrite !exp_usm in H. simpl in H. lia.
  - intros a b Ha Hb v. rewrite exp_app, !exp_usm. destruct (N.eqb 0 v); lia.
  - intros v. rewrite exp_usm. destruct (N.eqb 0 v); reflexivity.
  - intros. lia.
  - intros. lia.
  - intros a b Ha Hb. cbn [fst snd]. split; [|lia].
    split.
    + intros H v. rewrite !exp_usm. destruct (N.eqb 0 v); lia.
    + intros H. specialize (H 0%N). rewrite !exp_usm in H. simpl in H. lia.
  - intros vs. eapply (wf_incl _ _ (fun a b => lt (Z.to_nat a) (Z.to_nat b))).
    + intros a b (Ha & Hb & _ & _ & H). lia.
    + apply (wf_inverse_image _ _ _ Z.to_nat), lt_wf.
Qed.

(** ** Generic facts *)
Section Gen.
Context {M C : Type} (S : monos M) (ok : M -> Prop) (sm : M -> smono) (K : coefs C).
Context (HS : monos_ok S ok sm) (HK : ring_ok K).
Add Ring Kring : (ring_laws K HK).
Notation gt := (m_gt S).

Lemma exp_ms_mul a b v : ok a -> ok b -> exp (sm (m_mul S a b)) v = (exp (sm a) v + exp (sm b) v)%N.
Proof. intros Ha Hb. rewrite <- exp_app. apply (ms_mul S ok sm HS a b Ha Hb). Qed.
Lemma exp_ms_one v : exp (sm (m_one S)) v = 0%N.
Proof. apply (ms_one S ok sm HS). Qed.
Lemma ms_mul_comm a b : ok a -> ok b -> m_mul S a b = m_mul S b a.
Proof.
  intros Ha Hb. apply (ms_inj S ok sm HS); [apply (ms_mul_ok S ok sm HS); assumption..|].
  intros v. rewrite !exp_ms_mul by assumption. lia.
Qed.
Lemma ms_mul_assoc a b c : ok a -> ok b -> ok c ->
  m_mul S a (m_mul S b c) = m_mul S (m_mul S a b) c.
Proof.
  intros Ha Hb Hc. pose proof (ms_mul_ok S ok sm HS) as Hm.
  apply (ms_inj S ok sm HS); auto. intros v. rewrite !exp_ms_mul by auto. lia.
Qed.
Lemma ms_mul_1_r a : ok a -> m_mul S a (m_one S) = a.
Proof.
  intros Ha. pose proof (ms_one_ok S ok sm HS) as H1.
  apply (ms_inj S ok sm HS); [apply (ms_mul_ok S ok sm HS); assumption|assumption|].
  intros v. rewrite exp_ms_mul, exp_ms_one by assumption. lia.
Qed.
Lemma ms_gt_mul_l a b c : ok a -> ok b -> ok c -> gt a b = true -> gt (m_mul S c a) (m_mul S c b) = true.
Proof.
  intros Ha Hb Hc H. rewrite (ms_mul_comm c a), (ms_mul_comm c b) by assumption.
  apply (ms_gt_mul S ok sm HS); assumption.
Qed.

Lemma coef_graw p s : coef K (graw sm p) s = csum K (fun m => meqb (sm m) s) p.
Proof. induction p as [|[m c] p IH]; simpl; [reflexivity|]. rewrite IH. reflexivity. Qed.
Lemma graw_app (p q : list (M * C)) : graw sm (p ++ q) = graw sm p ++ graw sm q.
Proof. apply map_app. Qed.
Lemma csum_graw (p q : list (M * C)) : (forall phi, csum K phi p = csum K phi q) -> req K (graw sm p) (graw sm q).
Proof. intros H s. rewrite !coef_graw. apply H. Qed.

Lemma meqb_sm a m : ok a -> ok m -> meqb (sm m) (sm a) = m_eq S a m.
Proof.
  intros Ha Hm. destruct (meqb_spec (sm m) (sm a)) as [E|E].
  - apply (ms_inj S ok sm HS) in E; [|assumption|assumption]. subst. symmetry. apply (ms_eq S ok sm HS). reflexivity.
  - symmetry. destruct (m_eq S a m) eqn:E'; [|reflexivity]. apply (ms_eq S ok sm HS) in E'. subst.
    exfalso. apply E. intros v. reflexivity.
Qed.
Lemma csum_gcoef p a : all_ok ok p -> ok a -> csum K (m_eq S a) p = coef K (graw sm p) (sm a).
Proof.
  intros Hp Ha. rewrite coef_graw. induction Hp as [|[m c] p Hm Hp IH]; simpl in *; [reflexivity|].
  rewrite (meqb_sm a m Ha Hm), IH. reflexivity.
Qed.
Lemma gnormal_req p q : normal ok gt K p -> normal ok gt K q ->
  (req K (graw sm p) (graw sm q) <-> p = q).
Proof.
  intros Hp Hq. split; [|intros ->; reflexivity]. intros H.
  apply (normal_unique ok gt (m_eq S) K (ms_order S ok sm HS) (ms_eq S ok sm HS) HK); [assumption|assumption|].
  intros a Ha. rewrite !csum_gcoef; [apply H|apply Hq|exact Ha|apply Hp|exact Ha].
Qed.
(** equal polynomials have equal term sums *)
Lemma req_csum (p q : list (M * C)) a : all_ok ok p -> all_ok ok q -> ok a -> req K (graw sm p) (graw sm q) ->
  csum K (m_eq S a) p = csum K (m_eq S a) q.
Proof. intros Hp Hq Ha H. rewrite !csum_gcoef by assumption. apply H. Qed.
Lemma graw_negate p : graw sm (pv_negate K p) = ropp K (graw sm p).
Proof. unfold graw, pv_negate, ropp. rewrite !map_map. reflexivity. Qed.
Lemma graw_nil_req (p : list (M * C)) : normal ok gt K p -> req K (graw sm p) r0 -> p = [].
Proof.
  intros Hp H. apply (gnormal_req p []); [exact Hp| |exact H].
  split; [constructor|split; constructor].
Qed.
End Gen.
