(** * The subresultant chain: one pseudo-division step computes the next two non-zero subresultants. *)
From Coq Require Import Ring_theory Ring Setoid Morphisms Lia Arith.
From Verif Require Import Prelude Coef Spec SpecProofs SpecOps SpecOpsProofs GcdDom GcdPoly GcdMath PolyMulProofs ResSpec ResDet ResMath.

Section RC.
Context {C : Type} (K : coefs C) (HD : domain_ok K) (HG : cgcd_ok K).
Let HK : ring_ok K := domain_ring K HD.
Local Existing Instance HK.
Add Ring Kring : (ring_laws K HK).
Add Ring Rring : (rring K HK) (setoid (req_equiv K) (rring_ext K HK)).
Notation R := (rpoly C).
Notation req := (req K). Notation rmul := (rmul K). Notation rpow := (rpow K).
Local Infix "==" := req (at level 70).
Notation r0 := (@Spec.r0 C). Notation r1 := (Spec.r1 K).
Context (v : var).
Notation free := (vfree K v).
Notation shifts := (shifts K v).
Notation m1 := (ropp K r1).
Notation rows_eq := (Forall2 req).
Notation cf := (cf K v). Notation dl := (dl K v). Notation DP := (DP K v). Notation DPn := (DPn K v).
Notation rcancel' := (rcancel K HD HG).
Local Existing Instance rpow_proper.
Local Existing Instance cf_proper.
Local Existing Instance dl_proper.

Lemma lcancel s p q : ~ s == r0 -> rmul s p == rmul s q -> p == q.
Proof. intros N E. apply (rcancel' p q s N). transitivity (rmul s p); [ring|]. rewrite E. ring. Qed.
Lemma dl_deg n p : dl n p -> ~ p == r0 -> exists d, deg_is K p v (N.of_nat d) /\ d < n.
Proof.
  intros H Np. destruct (deg_exists K HD p v) as [d Hd]. exists (N.to_nat d). rewrite N2Nat.id. split; [exact Hd|].
  destruct Hd as [_ [->|(m & Hm & E)]].
  - destruct (not_zero_coef K HD p Np) as [m Hm]. specialize (H m Hm). lia.
  - specialize (H m Hm). lia.
Qed.
Lemma deg_dl n p : deg_is K p v (N.of_nat n) -> dl (Datatypes.S n) p.
Proof. intros [H _] m Hm. specialize (H m Hm). lia. Qed.
Lemma cf_deg n p : dl (Datatypes.S n) p -> ~ cf n p == r0 -> deg_is K p v (N.of_nat n).
Proof.
  intros H Nc. split; [intros m Hm; specialize (H m Hm); lia|]. right. destruct (not_zero_coef K HD _ Nc) as [m Hm].
  unfold ResMath.cf in Hm. rewrite (coef_rcoeff K HK) in Hm. destruct (N.eqb_spec (exp m v) 0); [|congruence].
  eexists. split; [exact Hm|]. cbn [exp]. rewrite N.eqb_refl, exp_mdrop, N.eqb_refl. lia.
Qed.
Lemma cf_nz n p m : coef K p m <> c0 K -> exp m v = N.of_nat n -> ~ cf n p == r0.
Proof.
  intros Hm Em E. apply Hm. specialize (E (mdrop v m)). unfold ResMath.cf in E. rewrite (coef_rcoeff K HK) in E. rewrite exp_mdrop, N.eqb_refl in E. cbn [N.eqb] in E.
  rewrite <- Em in E. cbn [coef Spec.r0] in E. rewrite <- E. apply (coef_proper K HK). intros w. cbn [exp]. rewrite !exp_mdrop.
  destruct (N.eqb_spec w v) as [->|n0]; [rewrite N.eqb_refl; lia|]. destruct (N.eqb_spec v w); [congruence|]. lia.
Qed.
Lemma cf_mul_dl n p q k : dl (Datatypes.S n) (rmul q p) -> ~ cf k p == r0 -> dl (Datatypes.S k) p -> k <= n -> dl (Datatypes.S (n - k)) q.
Proof.
  intros H Nc Hp L. destruct (rzero_dec K HD q) as [Zq|Nq]; [intros m Hm; exfalso; apply Hm, Zq|].
  assert (Np : ~ p == r0). { intros E. apply Nc. rewrite E. apply (cf_dl K HD v 0); [apply dl_0|lia]. }
  destruct (deg_exists K HD q v) as [d Hd].
  pose proof (deg_is_mul K HD HG q p v d (N.of_nat k) Nq Np Hd (cf_deg k p Hp Nc)) as M.
  assert (Nm : ~ rmul q p == r0) by (intros E; apply (rintegral K HD HG) in E as [E|E]; contradiction).
  destruct (dl_deg _ _ H Nm) as (e & He & Le). pose proof (deg_is_unique K _ _ _ _ He M) as U.
  intros m Hm. destruct Hd as [Hd _]. specialize (Hd m Hm). lia.
Qed.
Lemma dl_cancel n s p : free s -> ~ s == r0 -> dl n (rmul s p) -> dl n p.
Proof.
  intros Fs Ns H. destruct n as [|n].
  - intros m Hm. destruct (rzero_dec K HD (rmul s p)) as [Zs|Ns'].
    + apply (rintegral K HD HG) in Zs as [Zs|Zs]; [contradiction|]. exfalso. apply Hm, Zs.
    + destruct (not_zero_coef K HD _ Ns') as [x Hx]. specialize (H x Hx). lia.
  - assert (X : dl (Datatypes.S (n - 0)) p); [|rewrite Nat.sub_0_r in X; exact X].
    apply (cf_mul_dl n s p 0); [|intros E; apply Ns|apply (dl_1_free K v), Fs|lia].
    + assert (E : rmul p s == rmul s p) by ring. rewrite E. exact H.
    + rewrite <- E. intros m. unfold ResMath.cf. rewrite (coef_rcoeff K HK). destruct (N.eqb_spec (exp m v) 0) as [e|e].
      * apply (coef_proper K HK). intros w. cbn [exp]. rewrite !exp_mdrop. destruct (N.eqb_spec w v) as [->|n0]; [rewrite N.eqb_refl; lia|]. destruct (N.eqb_spec v w); [congruence|]. lia.
      * destruct (c0_dec K HK (coef K s m)) as [z|z]; [exact z|]. specialize (Fs m z). contradiction.
Qed.

Section Core.
Context (A B Q Cc : R) (r d : nat).
Notation b := (cf r B).
Hypothesis HA : dl (d + r + 2) A.
Hypothesis HB : dl (Datatypes.S r) B.
Hypothesis Hb : ~ b == r0.
Hypothesis HQ : rmul (rpow b (d + 2)) A == radd (rmul Q B) Cc.
Hypothesis HC : dl r Cc.

Lemma quo_dl : dl (d + 2) Q.
Proof.
  replace (d + 2) with (Datatypes.S ((d + r + 1) - r)) by lia. apply (cf_mul_dl _ B); [|exact Hb|exact HB|lia].
  assert (E : rmul Q B == radd (rmul (rpow b (d + 2)) A) (ropp K Cc)) by (rewrite HQ; ring). rewrite E.
  apply (dl_add K HD); [|apply (dl_opp K HD); eapply dl_weak; [|exact HC]; lia].
  apply (dl_scale K HD); [apply (rpow_free_ K HD), (cf_free K HD)|]. replace (Datatypes.S (d + r + 1)) with (d + r + 2) by lia. exact HA.
Qed.
Lemma core_main i t : i + t + 1 = r ->
  rmul (rpow b ((d + 2) * (t + 1))) (DP i (shifts (t + 1) A ++ shifts (d + 2 + t) B)) ==
  rmul (rpow m1 ((t + 1) * (d + 2 + t))) (rmul (rpow b (d + 2)) (DP i (shifts t B ++ shifts (t + 1) Cc))).
Proof.
  intros Hi. set (M := d + 2 + t). assert (Fb : free (rpow b (d + 2))) by (apply (rpow_free_ K HD), (cf_free K HD)).
  assert (L : forall P P' : R, length (shifts (t + 1) P ++ shifts M P') = (t + 1) + M) by (intros; rewrite app_length, !shifts_length; reflexivity).
  rewrite (DP_len K v i _ _ (L A B)). rewrite <- (rpow_rpow K HD).
  pose proof (al_scale_all K HD v _ (DP_al K HD v i (t + 1 + M)) (rpow b (d + 2)) (shifts (t + 1) A) Fb [] (shifts M B)) as E1.
  rewrite shifts_length in E1. cbn [app] in E1. rewrite <- E1. clear E1.
  transitivity (DPn i (t + 1 + M) (shifts (t + 1) (radd (rmul Q B) Cc) ++ shifts M B)).
  { apply (al_proper K v _ (DP_al K HD v i (t + 1 + M))). apply Forall2_app; [|apply rows_refl].
    assert (S1 : rows_eq (shifts (t + 1) (rmul (rpow b (d + 2)) A)) (map (rmul (rpow b (d + 2))) (shifts (t + 1) A))) by apply (shifts_scale K HD).
    assert (S2 : rows_eq (shifts (t + 1) (rmul (rpow b (d + 2)) A)) (shifts (t + 1) (radd (rmul Q B) Cc))) by (apply (shifts_eq K HD), HQ).
    clear -S1 S2 HK. revert S2. generalize (shifts (t + 1) (radd (rmul Q B) Cc)). induction S1 as [|x y l l' E _ IH]; intros z S2; inversion S2; subst; constructor.
    - rewrite <- E. assumption.
    - apply IH. assumption. }
  pose proof (DP_reduce K HD v i (t + 1 + M) (t + 1) [] (d + 2) Q B Cc M [] quo_dl ltac:(lia)) as E2. rewrite !app_nil_r in E2. cbn [app] in E2. rewrite E2. clear E2.
  pose proof (al_block K HD v _ (DP_al K HD v i (t + 1 + M)) (shifts (t + 1) Cc) [] (shifts M B) []) as E3. rewrite !app_nil_r, !shifts_length in E3. cbn [app] in E3. rewrite E3. clear E3.
  apply (rmul_proper K HK); [reflexivity|].
  rewrite <- (DP_len K v i (t + 1 + M) (shifts M B ++ shifts (t + 1) Cc)) by (rewrite app_length, !shifts_length; lia).
  unfold M. rewrite (DP_peels K HD v i t (d + 2) B r).
  - reflexivity.
  - exact HB.
  - rewrite shifts_length. lia.
  - apply (shifts_dl K HD v (t + 1) Cc r); [exact HC|lia].
  - rewrite shifts_length. lia.
Qed.

(** the subresultants of index <= r of (A,B) with formal degrees d+r+1 and r *)
Definition KK (i : nat) : R := DP i (shifts (r - i) A ++ shifts (d + r + 1 - i) B).
Lemma KK_r : KK r == rmul (rpow b d) B.
Proof.
  unfold KK. replace (r - r) with 0 by lia. cbn [ResSpec.shifts app]. replace (d + r + 1 - r) with (d + 1) by lia.
  pose proof (DP_peels K HD v r 1 d B r [] HB eq_refl (Forall_nil _) ltac:(cbn; lia)) as E. rewrite !app_nil_r in E. rewrite E.
  apply (rmul_proper K HK); [reflexivity|]. cbn [ResSpec.shifts]. rewrite (DP_one K HD). apply (X_0 K HD).
Qed.
Lemma KK_low i t : i + t + 1 = r ->
  DP i (shifts t (rmul (rpow b d) B) ++ shifts (t + 1) (rmul (rpow m1 d) Cc)) == rmul (rpow (rmul (rpow b d) b) (2 * t)) (KK i).
Proof.
  intros Hi. pose proof (core_main i t Hi) as E. unfold KK. replace (r - i) with (t + 1) by lia. replace (d + r + 1 - i) with (d + 2 + t) by lia.
  set (Kx := DP i (shifts (t + 1) A ++ shifts (d + 2 + t) B)) in *. clearbody Kx. clear -E Hb HK HD HG.
  assert (Fb : free (rpow b d)) by (apply (rpow_free_ K HD), (cf_free K HD)).
  assert (Fm : free (rpow m1 d)) by (apply (rpow_free_ K HD), (vfree_opp K HD), (vfree_const K)).
  assert (L : forall P P' : R, length (shifts t P ++ shifts (t + 1) P') = t + (t + 1)) by (intros; rewrite app_length, !shifts_length; reflexivity).
  rewrite (DP_len K v i _ _ (L B Cc)) in E. rewrite (DP_len K v i _ _ (L _ _)). set (phi := DPn i (t + (t + 1))) in *.
  assert (AL : alternating K v phi) by apply (DP_al K HD v). clearbody phi.
  assert (E1 : phi (shifts t (rmul (rpow b d) B) ++ shifts (t + 1) (rmul (rpow m1 d) Cc)) ==
    rmul (rpow (rpow b d) t) (rmul (rpow (rpow m1 d) (t + 1)) (phi (shifts t B ++ shifts (t + 1) Cc)))).
  { transitivity (phi (map (rmul (rpow b d)) (shifts t B) ++ map (rmul (rpow m1 d)) (shifts (t + 1) Cc))).
    { apply (al_proper K v _ AL). apply Forall2_app; apply (shifts_scale K HD). }
    pose proof (al_scale_all K HD v _ AL _ (shifts t B) Fb [] (map (rmul (rpow m1 d)) (shifts (t + 1) Cc))) as Y1. rewrite shifts_length in Y1. cbn [app] in Y1. rewrite Y1.
    pose proof (al_scale_all K HD v _ AL _ (shifts (t + 1) Cc) Fm (shifts t B) []) as Y2. rewrite shifts_length, !app_nil_r in Y2. rewrite Y2. reflexivity. }
  rewrite E1. clear E1. set (y := phi (shifts t B ++ shifts (t + 1) Cc)) in *. clearbody y. clear AL phi L Fb Fm.
  set (bb := b) in *. clearbody bb.
  rewrite !(rpow_rpow K HD).
  (* cancel b^(d+2) *)
  apply (lcancel (rpow bb (d + 2))); [apply (rpow_nz_ K HD HG), Hb|].
  transitivity (rmul (rpow bb (d * t)) (rmul (rpow m1 (d * (t + 1) + (t + 1) * (d + 2 + t))) (rmul (rpow m1 ((t + 1) * (d + 2 + t))) (rmul (rpow bb (d + 2)) y)))).
  { rewrite (rpow_add K HK m1).
    assert (Sg : rmul (rpow m1 ((t + 1) * (d + 2 + t))) (rpow m1 ((t + 1) * (d + 2 + t))) == r1) by (rewrite <- (rpow_add K HK); apply (rpow_m1_even K HD)).
    set (z := rpow m1 ((t + 1) * (d + 2 + t))) in *. clearbody z.
    transitivity (rmul (rmul z z) (rmul (rpow bb (d + 2)) (rmul (rpow bb (d * t)) (rmul (rpow m1 (d * (t + 1))) y)))); [rewrite Sg; ring|ring]. }
  rewrite <- E.
  replace (d * (t + 1) + (t + 1) * (d + 2 + t)) with ((t + 1) * (d + 1) + (t + 1) * (d + 1) + t * (t + 1)) by nia.
  assert (Ev : rpow m1 (t * (t + 1)) == r1).
  { assert (X : exists k, t * (t + 1) = k + k).
    { clear. induction t as [|t [k IH]]; [exists 0; reflexivity|]. exists (k + (t + 1)). nia. }
    destruct X as [k ->]. apply (rpow_m1_even K HD). }
  rewrite (rpow_add K HK m1 _ (t * (t + 1))), (rpow_m1_even K HD), Ev.
  transitivity (rmul (rpow bb (d * t + (d + 2) * (t + 1))) Kx); [rewrite (rpow_add K HK); ring|].
  rewrite (rpow_mulp K HD), (rpow_rpow K HD).
  replace (d * t + (d + 2) * (t + 1)) with ((d + 2) + (d * (2 * t) + 2 * t)) by nia.
  rewrite !(rpow_add K HK bb). ring.
Qed.
Lemma KK_pred : 1 <= r -> KK (r - 1) == rmul (rpow m1 d) Cc.
Proof.
  intros Hr. pose proof (KK_low (r - 1) 0 ltac:(lia)) as E. cbn [ResSpec.shifts app Nat.add Nat.mul Spec.rpow] in E.
  rewrite (DP_one K HD) in E. transitivity (rmul r1 (KK (r - 1))); [ring|]. rewrite <- E. apply (X_0 K HD).
Qed.
End Core.

(** the state of the chain: [A] has degree j+1, [B] degree at most j *)
Definition chain (Sg : nat -> R) (j : nat) (A B : R) : Prop :=
  dl (j + 2) A /\ dl (Datatypes.S j) B /\ ~ cf (j + 1) A == r0 /\
  forall i, i <= j -> rmul (rpow (cf (j + 1) A) (2 * (j - i))) (Sg i) == DP i (shifts (j - i) A ++ shifts (j - i + 1) B).

Section Step.
Context (A B Q Cc : R) (r d : nat) (a : R) (e0 e1 : nat) (Sg : nat -> R).
Notation b := (cf r B).
Hypothesis HA : dl (d + r + 2) A.
Hypothesis HB : dl (Datatypes.S r) B.
Hypothesis Hb : ~ b == r0.
Hypothesis HQ : rmul (rpow b (d + 2)) A == radd (rmul Q B) Cc.
Hypothesis HC : dl r Cc.
Hypothesis Fa : free a.
Hypothesis Na : ~ a == r0.
Hypothesis HSg : forall i, i <= r -> KK A B r d i == rmul (rpow a (e0 + e1 * (r - i))) (Sg i).

Lemma step_r : rmul (rpow a e0) (Sg r) == rmul (rpow b d) B.
Proof.
  rewrite <- (KK_r A B r d HB). rewrite (HSg r) by lia. replace (e0 + e1 * (r - r)) with e0 by lia. reflexivity.
Qed.
Lemma step_pred : 1 <= r -> rmul (rpow a (e0 + e1)) (Sg (r - 1)) == rmul (rpow m1 d) Cc.
Proof.
  intros Hr. rewrite <- (KK_pred A B Q Cc r d HA HB Hb HQ HC Hr). rewrite (HSg (r - 1)) by lia. replace (e0 + e1 * (r - (r - 1))) with (e0 + e1) by nia. reflexivity.
Qed.
Lemma pa_free n : free (rpow a n). Proof. apply (rpow_free_ K HD), Fa. Qed.
Lemma pa_nz n : ~ rpow a n == r0. Proof. apply (rpow_nz_ K HD HG), Na. Qed.
Lemma step_lc : rmul (rpow a e0) (cf r (Sg r)) == rmul (rpow b d) b.
Proof.
  rewrite <- (cf_scale K HD) by apply pa_free. rewrite step_r. apply (cf_scale K HD), (rpow_free_ K HD), (cf_free K HD).
Qed.
Lemma step_chain : 1 <= r -> chain Sg (r - 1) (Sg r) (Sg (r - 1)).
Proof.
  intros Hr. pose proof step_lc as LC.
  assert (Ns : ~ cf r (Sg r) == r0).
  { intros E. rewrite E in LC. assert (E' : rmul (rpow b d) b == r0) by (rewrite <- LC; ring).
    apply (rintegral K HD HG) in E' as [E'|E']; [|contradiction]. apply (rpow_nz_ K HD HG b d Hb E'). }
  split; [|split; [|split]].
  - replace (r - 1 + 2) with (Datatypes.S r) by lia. apply (dl_cancel _ (rpow a e0)); [apply pa_free|apply pa_nz|]. rewrite step_r.
    apply (dl_scale K HD); [apply (rpow_free_ K HD), (cf_free K HD)|exact HB].
  - replace (Datatypes.S (r - 1)) with r by lia. apply (dl_cancel _ (rpow a (e0 + e1))); [apply pa_free|apply pa_nz|]. rewrite step_pred by exact Hr.
    apply (dl_scale K HD); [apply (rpow_free_ K HD), (vfree_opp K HD), (vfree_const K)|exact HC].
  - replace (r - 1 + 1) with r by lia. exact Ns.
  - intros i Hi. replace (r - 1 + 1) with r by lia. set (t := r - 1 - i). assert (Hit : i + t + 1 = r) by lia.
    pose proof (KK_low A B Q Cc r d HA HB Hb HQ HC i t Hit) as E. rewrite (HSg i) in E by lia. replace (r - i) with (t + 1) in E by lia.
    assert (L : forall P P' : R, length (shifts t P ++ shifts (t + 1) P') = t + (t + 1)) by (intros; rewrite app_length, !shifts_length; reflexivity).
    rewrite (DP_len K v i _ _ (L _ _)) in E. rewrite (DP_len K v i _ _ (L _ _)). set (phi := DPn i (t + (t + 1))) in *.
    assert (AL : alternating K v phi) by apply (DP_al K HD v). clearbody phi.
    assert (E1 : rmul (rpow (rpow a e0) t) (rmul (rpow (rpow a (e0 + e1)) (t + 1)) (phi (shifts t (Sg r) ++ shifts (t + 1) (Sg (r - 1))))) ==
      phi (shifts t (rmul (rpow b d) B) ++ shifts (t + 1) (rmul (rpow m1 d) Cc))).
    { transitivity (phi (map (rmul (rpow a e0)) (shifts t (Sg r)) ++ map (rmul (rpow a (e0 + e1))) (shifts (t + 1) (Sg (r - 1))))).
      - pose proof (al_scale_all K HD v _ AL (rpow a e0) (shifts t (Sg r)) (pa_free _) [] (map (rmul (rpow a (e0 + e1))) (shifts (t + 1) (Sg (r - 1))))) as Y1. rewrite shifts_length in Y1. cbn [app] in Y1. rewrite Y1.
        pose proof (al_scale_all K HD v _ AL (rpow a (e0 + e1)) (shifts (t + 1) (Sg (r - 1))) (pa_free _) (shifts t (Sg r)) []) as Y2. rewrite shifts_length, !app_nil_r in Y2. rewrite Y2. reflexivity.
      - apply (al_proper K v _ AL).
        assert (Z1 : forall n s P P', rmul s P == P' -> rows_eq (map (rmul s) (shifts n P)) (shifts n P')).
        { clear -HK HD. intros n s P P' E. induction n as [|n IH]; cbn [ResSpec.shifts map]; constructor; [rewrite <- E; ring|exact IH]. }
        apply Forall2_app; apply Z1; [apply step_r|apply step_pred, Hr]. }
    rewrite E in E1. rewrite <- LC in E1. set (y := phi (shifts t (Sg r) ++ shifts (t + 1) (Sg (r - 1)))) in *. clearbody y.
    set (s := cf r (Sg r)) in *. clearbody s. rewrite (rpow_mulp K HD), !(rpow_rpow K HD) in E1.
    apply (lcancel (rpow a (e0 * (2 * t) + (e0 + e1 * (t + 1))))); [apply pa_nz|].
    transitivity (rmul (rmul (rpow a (e0 * (2 * t))) (rpow s (2 * t))) (rmul (rpow a (e0 + e1 * (t + 1))) (Sg i))); [rewrite (rpow_add K HK a (e0 * (2 * t))); ring|].
    rewrite <- E1. replace (e0 * (2 * t) + (e0 + e1 * (t + 1))) with (e0 * t + (e0 + e1) * (t + 1)) by nia. rewrite (rpow_add K HK a (e0 * t)). ring.
Qed.
End Step.

(** the hypothesis of the step: in the loop, initially with deg F > deg G, initially with deg F = deg G *)
Lemma chain_KK Sg j A B r d : chain Sg j A B -> j = d + r -> dl (Datatypes.S r) B ->
  forall i, i <= r -> KK A B r d i == rmul (rpow (cf (j + 1) A) (d + 2 * (r - i))) (Sg i).
Proof.
  intros (HA & _ & Na & H) -> HB i Hi. specialize (H i ltac:(lia)).
  replace (d + r - i) with (d + (r - i)) in H at 2 by lia. replace (d + r - i + 1) with (d + r + 1 - i) in H by lia.
  rewrite (DP_peels K HD v i (r - i) d A (d + r + 1)) in H.
  - fold (KK A B r d i) in H. set (a := cf (d + r + 1) A) in *. apply (lcancel (rpow a d)); [apply (rpow_nz_ K HD HG), Na|].
    rewrite <- H. replace (2 * (d + r - i)) with (d + (d + 2 * (r - i))) by lia. rewrite (rpow_add K HK a d). ring.
  - replace (Datatypes.S (d + r + 1)) with (d + r + 2) by lia. exact HA.
  - rewrite shifts_length. lia.
  - apply (shifts_dl K HD v _ B (Datatypes.S r)); [exact HB|lia].
  - rewrite shifts_length. lia.
Qed.
Lemma shifts_zero i k n B : B == r0 -> DPn i k (shifts (Datatypes.S n) B) == r0.
Proof.
  intros E. cbn [ResSpec.shifts]. pose proof (al_mid K v _ (DP_al K HD v i k) [] (rmul (rmono K [(v, N.of_nat n)]) B) r0 (shifts n B)) as X. cbn [app] in X.
  rewrite X by (rewrite E; ring). apply (al_0 K HD v _ (DP_al K HD v i k) []).
Qed.
Lemma chain_zero Sg j A B : chain Sg j A B -> B == r0 -> forall i, i <= j -> Sg i == r0.
Proof.
  intros H E i Hi. assert (HB : dl (Datatypes.S i) B) by (rewrite E; apply dl_0).
  pose proof (chain_KK Sg j A B i (j - i) H ltac:(lia) HB i (le_n _)) as X. unfold KK in X. replace (i - i) with 0 in X by lia. cbn [ResSpec.shifts app] in X.
  replace (j - i + i + 1 - i) with (Datatypes.S (j - i)) in X by lia. unfold ResMath.DP in X. rewrite shifts_zero in X by exact E.
  symmetry in X. apply (rintegral K HD HG) in X as [X|X]; [|exact X]. exfalso. destruct H as (_ & _ & Na & _). apply (rpow_nz_ K HD HG _ _ Na X).
Qed.

(** the i-th subresultant of F and G, of degrees m and l *)
Definition subres (m l : nat) (F G : R) (i : nat) : R := DP i (shifts (l - i) F ++ shifts (m - i) G).
Lemma init_KK F G m l : l < m -> forall i, i <= l -> KK F G l (m - 1 - l) i == rmul (rpow r1 (0 + 0 * (l - i))) (subres m l F G i).
Proof.
  intros L i Hi. unfold KK, subres. replace (m - 1 - l + l + 1 - i) with (m - i) by lia. cbn [Nat.add Nat.mul Spec.rpow]. ring.
Qed.
Section Equal.
Context (F G Q Cc : R) (m : nat).
Hypothesis Hm : 1 <= m.
Notation g := (cf m G).
Hypothesis HF : dl (Datatypes.S m) F.
Hypothesis HGG : dl (Datatypes.S m) G.
Hypothesis Ng : ~ g == r0.
Hypothesis HQ : rmul g F == radd (rmul Q G) Cc.
Hypothesis HC : dl m Cc.
Lemma eq_quo : dl 1 Q.
Proof.
  replace 1 with (Datatypes.S (m - m)) by lia. apply (cf_mul_dl _ G); [|exact Ng|exact HGG|lia].
  assert (E : rmul Q G == radd (rmul g F) (ropp K Cc)) by (rewrite HQ; ring). rewrite E.
  apply (dl_add K HD); [|apply (dl_opp K HD); eapply dl_weak; [|exact HC]; lia]. apply (dl_scale K HD); [apply (cf_free K HD)|exact HF].
Qed.
Lemma equal_KK r : r < m -> dl (Datatypes.S r) Cc -> forall i, i <= r ->
  KK G (ropp K Cc) r (m - 1 - r) i == rmul (rpow g (0 + 1 * (r - i))) (subres m m F G i).
Proof.
  intros Lr Hr i Hi. set (n := m - i). assert (L : forall P P' : R, length (shifts n P ++ shifts n P') = n + n) by (intros; rewrite app_length, !shifts_length; reflexivity).
  unfold subres. fold n. pose proof (L F G) as L1. set (S0 := DP i (shifts n F ++ shifts n G)).
  assert (AL : alternating K v (DPn i (n + n))) by apply (DP_al K HD v).
  assert (E : rmul (rpow g n) S0 == rmul (rpow g (m - r)) (KK G (ropp K Cc) r (m - 1 - r) i)).
  { unfold S0. rewrite (DP_len K v i _ _ L1).
    pose proof (al_scale_all K HD v _ AL g (shifts n F) (cf_free K HD v m G) [] (shifts n G)) as E1. rewrite shifts_length in E1. cbn [app] in E1. rewrite <- E1.
    transitivity (DPn i (n + n) (shifts n (radd (rmul Q G) Cc) ++ shifts n G)).
    { apply (al_proper K v _ AL). apply Forall2_app; [|apply rows_refl]. clear -HQ HK HD. induction n as [|n IH]; cbn [ResSpec.shifts map]; constructor; [rewrite <- HQ; ring|exact IH]. }
    pose proof (DP_reduce K HD v i (n + n) n [] 1 Q G Cc n [] eq_quo ltac:(lia)) as E2. rewrite !app_nil_r in E2. cbn [app] in E2. rewrite E2.
    pose proof (al_block K HD v _ AL (shifts n Cc) [] (shifts n G) []) as E3. rewrite !app_nil_r, !shifts_length in E3. cbn [app] in E3. rewrite E3.
    assert (Fm : free m1) by (apply (vfree_opp K HD), (vfree_const K)).
    assert (E4 : DPn i (n + n) (shifts n G ++ shifts n (ropp K Cc)) == rmul (rpow m1 n) (DPn i (n + n) (shifts n G ++ shifts n Cc))).
    { pose proof (al_scale_all K HD v _ AL m1 (shifts n Cc) Fm (shifts n G) []) as Y. rewrite shifts_length, !app_nil_r in Y. rewrite <- Y.
      apply (al_proper K v _ AL). apply Forall2_app; [apply rows_refl|]. clear -HK HD. induction n as [|n IH]; cbn [ResSpec.shifts map]; constructor; [ring|exact IH]. }
    assert (Ev : rpow m1 (n * n) == rpow m1 n).
    { destruct n as [|k]; [reflexivity|]. replace (Datatypes.S k * Datatypes.S k) with (Datatypes.S k + k * (k + 1)) by nia.
      assert (X : exists q, k * (k + 1) = q + q). { clear. induction k as [|t [q IH]]; [exists 0; reflexivity|]. exists (q + (t + 1)). nia. }
      destruct X as [q ->]. rewrite (rpow_add K HK), (rpow_m1_even K HD). ring. }
    rewrite Ev, <- E4. rewrite <- (DP_len K v i (n + n) _ (L _ _)). unfold KK.
    replace n with ((m - r) + (r - i)) at 1 by lia. rewrite (DP_peels K HD v i (r - i) (m - r) G m).
    - replace (m - 1 - r + r + 1 - i) with n by lia. reflexivity.
    - exact HGG.
    - rewrite shifts_length. lia.
    - apply (shifts_dl K HD v n (ropp K Cc) (Datatypes.S r)); [apply (dl_opp K HD), Hr|lia].
    - rewrite shifts_length. lia. }
  apply (lcancel (rpow g (m - r))); [apply (rpow_nz_ K HD HG), Ng|]. rewrite <- E. replace n with ((m - r) + (0 + 1 * (r - i))) by lia. rewrite (rpow_add K HK). ring.
Qed.
Lemma equal_top : subres m m F G (m - 1) == ropp K Cc.
Proof.
  pose proof (equal_KK (m - 1) ltac:(lia)) as X. replace (Datatypes.S (m - 1)) with m in X by lia. specialize (X HC (m - 1) (le_n _)).
  replace (0 + 1 * (m - 1 - (m - 1))) with 0 in X by lia. cbn [Spec.rpow] in X. transitivity (rmul r1 (subres m m F G (m - 1))); [ring|]. rewrite <- X.
  unfold KK. replace (m - 1 - (m - 1)) with 0 by lia. replace (0 + (m - 1) + 1 - (m - 1)) with 1 by lia. cbn [ResSpec.shifts app]. rewrite (DP_one K HD). apply (X_0 K HD).
Qed.
Lemma equal_zero : Cc == r0 -> forall i, i < m -> subres m m F G i == r0.
Proof.
  intros E i Hi. pose proof (equal_KK i Hi) as X. specialize (X ltac:(rewrite E; apply dl_0) i (le_n _)). replace (0 + 1 * (i - i)) with 0 in X by lia. cbn [Spec.rpow] in X.
  transitivity (rmul r1 (subres m m F G i)); [ring|]. rewrite <- X. unfold KK. replace (i - i) with 0 by lia. cbn [ResSpec.shifts app].
  replace (m - 1 - i + i + 1 - i) with (Datatypes.S (m - 1 - i)) by lia. unfold ResMath.DP. apply shifts_zero. rewrite E. ring.
Qed.
End Equal.
End RC.
