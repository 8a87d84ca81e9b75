(** * Buchberger's criterion, with the two elimination criteria. *)
From Coq Require Import Ring Sorting.Sorted Permutation Setoid Morphisms.
From Verif Require Import Prelude Coef Spec SpecProofs SpecOps SpecOpsProofs OrderSpec PairVec PairVecProofs Mono MonoProofs
  MonoStruct MonoStructProofs Heap HeapProofs HeapMulProofs Poly PolyMulProofs PolyOps MonoOpsProofs Groebner MonoGcdProofs AF GroebnerProofs.
Local Open Scope Z_scope.

Section BP.
Context {C : Type} (K : coefs C) (HK : ring_ok K) (HF : field_ok K).
Context (vo : vorder) (Hv : vorder_ok vo) (S : monos mono) (HS : S = lexS vo \/ S = grlexS vo).
Add Ring Kring2 : (ring_laws K HK).
Add Ring Rring2 : (rring K HK) (setoid (req_equiv K) (rring_ext K HK)).
Notation ok := (mok vo).
Notation gt := (m_gt S).
Notation norm := (normal ok gt K).
Notation R := (graw sm).
Notation req := (req K).
Notation rmul := (rmul K).
Notation dv := (cquo K).
Notation "0c" := (c0 K).
Notation "1c" := (c1 K).
Notation mul := (m_mul S).
Notation dvd a b := (mdivides (sm a) (sm b)).
Notation HM := (HM vo Hv S HS).
Notation gok := (gok K vo S).
Notation T := (T K).
Notation D := (D K S).
Notation qt := (qt S).
Notation W := (W K vo S).
Notation U := (U K vo S).
Notation pmax := (pmax S).
Notation span := (span K).
Notation mulok := (ms_mul_ok S ok sm HM).
Let HD : domain_ok K := field_domain K HF.

(** every specification monomial is the value of a well-formed one *)
Lemma mono_for (s : smono) : exists m, ok m /\ meq (sm m) s.
Proof.
  induction s as [|[v e] s (m & Hm & E)].
  - exists (m_one S). split; [apply (ms_one_ok S ok sm HM)|apply (ms_one S ok sm HM)].
  - exists (mul (umono v (Z.of_N e)) m).
    assert (Hu : ok (umono v (Z.of_N e))) by (apply (umono_spec vo); lia).
    split; [apply mulok; assumption|]. intros w. rewrite (exp_ms_mul S ok sm HM) by assumption.
    rewrite (sm_umono vo v (Z.of_N e) ltac:(lia) w), (E w), N2Z.id. cbn [exp]. lia.
Qed.

(** ** coefficients at large monomials *)
Lemma coef_above p L : norm p -> ok L -> pmax L p -> coef K (R p) (sm L) = 0c.
Proof.
  intros (O & _) HL M. rewrite <- (csum_gcoef S ok sm K HM) by assumption.
  apply (csum_eq_lt ok gt (m_eq S) K (ms_order S ok sm HM) (ms_eq S ok sm HM)); assumption.
Qed.
Lemma coef_head t p : norm (t :: p) -> coef K (R (t :: p)) (sm (fst t)) = snd t.
Proof.
  intros N. rewrite <- (csum_gcoef S ok sm K HM) by (try apply N; apply (normal_cons ok gt K) in N; apply N).
  apply (csum_eq_head ok gt (m_eq S) K (ms_order S ok sm HM) (ms_eq S ok sm HM) HK). exact N.
Qed.
Lemma T_coef m g : gok g -> ok m -> coef K (T m g) (sm (mul m (lm g))) = lc K g /\
  forall L, ok L -> gt L (mul m (lm g)) = true -> coef K (T m g) (sm L) = 0c.
Proof.
  intros Gg Hm. destruct g as [|t g]; [destruct (proj2 Gg eq_refl)|]. cbn [lm lc].
  destruct (gok_cons K vo S t g Gg) as (Ot & Ct & Mt & Ng).
  set (p := mul_term S m (fun d => cmul K d 1c) (t :: g)).
  assert (Np : norm p) by (apply (mul_term_norm K HK HF vo Hv S HS m 1c); [exact (proj1 Gg)|exact Hm|apply (domain_nontrivial K HD)|reflexivity]).
  assert (E : req (R p) (T m (t :: g))).
  { unfold p. rewrite (mul_term_req K HK vo Hv S HS m 1c _ (t :: g)); [apply (rconst_1 K HK)|exact (proj1 (proj1 Gg))|exact Hm|reflexivity]. }
  assert (Hp : p = (mul m (fst t), snd t) :: mul_term S m (fun d => cmul K d 1c) g).
  { unfold p, mul_term. cbn [map]. f_equal. f_equal; [apply (ms_mul_comm S ok sm HM); assumption|ring]. }
  split.
  - rewrite <- (E _), Hp. rewrite Hp in Np. apply (coef_head _ _ Np).
  - intros L HL HgL. rewrite <- (E _). apply coef_above; [exact Np|exact HL|].
    rewrite Hp. constructor; [exact HgL|]. rewrite Hp in Np. apply (normal_cons ok gt K) in Np. destruct Np as (O1 & _ & M1 & (O2 & _)).
    apply (pmax_trans vo Hv S HS (mul m (fst t))); assumption.
Qed.

(** ** generators with a condition on the multiplier and on the leading monomial *)
Definition genM (G : list (poly C)) (M B : mono -> Prop) (x : rpoly C) : Prop :=
  exists g m c, In g G /\ ok m /\ M m /\ B (mul m (lm g)) /\ req x (rmul (rconst c) (T m g)).
Definition VM G M B : rpoly C -> Prop := span (genM G M B).
Definition any (m : mono) : Prop := True.
Definition le (L m : mono) : Prop := L = m \/ gt L m = true.
Definition lt (L m : mono) : Prop := gt L m = true.

Lemma VM_imp G (M M' B B' : mono -> Prop) x : Forall gok G -> (forall m, ok m -> M m -> M' m) -> (forall m, ok m -> B m -> B' m) -> VM G M B x -> VM G M' B' x.
Proof.
  intros HG HMM HB H. apply (span_bind K _ _ _ H). intros y (g & m & c & Hg & Hm & Mm & Bm & E). apply sp_in.
  exists g, m, c. split; [exact Hg|]. split; [exact Hm|]. split; [apply HMM; assumption|]. split; [|exact E].
  apply HB; [|exact Bm]. apply mulok; [exact Hm|]. rewrite Forall_forall in HG. apply (lm_ok K vo S), HG, Hg.
Qed.
Lemma U_VM G L x : U G L x <-> VM G any (lt L) x.
Proof.
  split; intros H; apply (span_bind K _ _ _ H).
  - intros y [(g & m & c & Hg & Hm & B & E)|(a & b & c & [] & _)]. apply sp_in. exists g, m, c. repeat (split; [assumption|]). split; [exact I|]. split; assumption.
  - intros y (g & m & c & Hg & Hm & _ & B & E). apply sp_in. left. exists g, m, c. auto.
Qed.
Lemma VM_coef G M L x : Forall gok G -> VM G M (lt L) x -> ok L -> coef K x (sm L) = 0c.
Proof.
  intros HG H HL. induction H as [|x (g & m & c & Hg & Hm & _ & B & E)|p q _ IHp _ IHq|p q E _ IH].
  - reflexivity.
  - rewrite (E _), <- (rscale_mul K HK), (coef_scale K HK). rewrite Forall_forall in HG.
    rewrite (proj2 (T_coef m g (HG g Hg) Hm) L HL B). ring.
  - unfold radd. rewrite (coef_app K HK), IHp, IHq. ring.
  - rewrite <- (E _). exact IH.
Qed.
Lemma VM_le_coef G M L L' x : Forall gok G -> VM G M (le L) x -> ok L -> ok L' -> gt L' L = true -> coef K x (sm L') = 0c.
Proof.
  intros HG H HL HL' Hgt. apply (VM_coef G M); [exact HG| |exact HL'].
  apply (VM_imp G M M (le L)); auto. intros m Hm [<-|Hlt]; [exact Hgt|]. apply (gtt vo Hv S HS) with L; assumption.
Qed.

(** Every S-polynomial is a combination with smaller leading monomials. *)
Definition crit (G : list (poly C)) : Prop :=
  forall a b L, In a G -> In b G -> ok L -> dvd (lm a) L -> dvd (lm b) L -> U G L (D L a b).
Definition monic (g : poly C) : Prop := lc K g = 1c.

Lemma decomp G M L x : Forall gok G -> crit G -> ok L -> VM G M (le L) x ->
  U G L x \/ exists g c, In g G /\ dvd (lm g) L /\ U G L (rsub K x (rmul (rconst c) (T (qt L (lm g)) g))).
Proof.
  intros HG HC HL H. induction H as [|x (g & m & c & Hg & Hm & _ & B & E)|p q _ IHp _ IHq|p q E _ IH].
  - left. apply (sp_0 K).
  - rewrite Forall_forall in HG. pose proof (lm_ok K vo S g (HG g Hg)) as Og. destruct B as [B|B].
    + right. exists g, c. split; [exact Hg|]. rewrite B. split; [apply (dvd_mul vo Hv S HS); assumption|].
      rewrite (qt_unique vo Hv S HS _ (lm g) m) by (try assumption; reflexivity).
      apply (sp_eq K) with r0; [rewrite E; ring|apply sp_0].
    + left. apply sp_in. left. exists g, m, c. auto.
  - destruct IHp as [Up|(g & c & Hg & Dg & Up)], IHq as [Uq|(g' & c' & Hg' & Dg' & Uq)].
    + left. apply (sp_add K); assumption.
    + right. exists g', c'. split; [exact Hg'|]. split; [exact Dg'|].
      apply (sp_eq K) with (radd p (rsub K q (rmul (rconst c') (T (qt L (lm g')) g')))); [ring|apply sp_add; assumption].
    + right. exists g, c. split; [exact Hg|]. split; [exact Dg|].
      apply (sp_eq K) with (radd (rsub K p (rmul (rconst c) (T (qt L (lm g)) g))) q); [ring|apply sp_add; assumption].
    + right. exists g, (cadd K c c'). split; [exact Hg|]. split; [exact Dg|].
      apply (sp_eq K) with (radd (radd (rsub K p (rmul (rconst c) (T (qt L (lm g)) g))) (rsub K q (rmul (rconst c') (T (qt L (lm g')) g'))))
                                 (rmul (rconst c') (D L g' g))).
      * assert (RC : req (rconst (cadd K c c')) (radd (rconst c) (rconst c'))).
        { intros m. unfold rconst, radd. cbn [app coef]. destruct (meqb [] m); ring. }
        rewrite RC. unfold GroebnerProofs.D. ring.
      * apply sp_add; [apply sp_add; assumption|]. apply (W_scale K HK vo S). apply HC; assumption.
  - destruct IH as [Up|(g & c & Hg & Dg & Up)].
    + left. apply (sp_eq K) with p; assumption.
    + right. exists g, c. split; [exact Hg|]. split; [exact Dg|]. apply (sp_eq K) with (2 := Up). rewrite E. reflexivity.
Qed.

(** ** restriction to finitely many variables *)
Definition msupb (vs : list var) (s : smono) : bool :=
  forallb (fun t => N.eqb (exp s (fst t)) 0 || existsb (N.eqb (fst t)) vs) s.
Lemma msupb_spec vs s : msupb vs s = true <-> msup vs s.
Proof.
  unfold msupb, msup. rewrite forallb_forall. split.
  - intros H v Hn. destruct (in_dec N.eq_dec v (map fst s)) as [Hi|Hi]; [|rewrite exp_notin in Hn by exact Hi; congruence].
    apply in_map_iff in Hi. destruct Hi as ([w e] & <- & Hi). specialize (H _ Hi). cbn [fst] in *.
    apply orb_true_iff in H. destruct H as [H|H]; [apply N.eqb_eq in H; congruence|].
    apply existsb_exists in H. destruct H as (w' & Hw & E). apply N.eqb_eq in E. subst. exact Hw.
  - intros H t Ht. apply orb_true_iff. destruct (N.eqb_spec (exp s (fst t)) 0) as [e|e]; [left; reflexivity|right].
    apply existsb_exists. exists (fst t). split; [apply H, e|apply N.eqb_refl].
Qed.
Lemma msup_meq vs s s' : meq s s' -> msup vs s -> msup vs s'.
Proof. intros E H v Hn. apply H. rewrite (E v). exact Hn. Qed.
Global Instance msupb_proper vs : Proper (meq ==> eq) (msupb vs).
Proof.
  intros s s' E. destruct (msupb vs s) eqn:A, (msupb vs s') eqn:B; try reflexivity; exfalso.
  - apply msupb_spec in A. apply (msup_meq vs _ _ E) in A. apply msupb_spec in A. congruence.
  - apply msupb_spec in B. assert (E' : meq s' s) by (intros v; symmetry; apply E). apply (msup_meq vs _ _ E') in B. apply msupb_spec in B. congruence.
Qed.
Definition restr (vs : list var) (p : rpoly C) : rpoly C := filter (fun t => msupb vs (fst t)) p.
Lemma restr_coef vs p m : coef K (restr vs p) m = if msupb vs m then coef K p m else 0c.
Proof. apply (coef_filter K). apply msupb_proper. Qed.
Lemma restr_req vs p q : req p q -> req (restr vs p) (restr vs q).
Proof. intros E m. rewrite !restr_coef, (E m). reflexivity. Qed.
Lemma restr_app vs p q : restr vs (radd p q) = radd (restr vs p) (restr vs q).
Proof. apply filter_app. Qed.
Lemma restr_graw vs p : sup vs p -> restr vs (R p) = R p.
Proof.
  intros H. unfold restr, MonoStruct.graw. induction H as [|t p Ht Hp IH]; [reflexivity|]. cbn [map filter fst].
  rewrite (proj2 (msupb_spec vs _) Ht), IH. reflexivity.
Qed.
Lemma restr_T vs m g : ok m -> all_ok ok g -> sup vs g -> req (restr vs (T m g)) (if msupb vs (sm m) then T m g else r0).
Proof.
  intros Hm Hg Sg.
  assert (E : req (T m g) (R (mul_term S m (fun d => cmul K d 1c) g))).
  { rewrite (mul_term_req K HK vo Hv S HS m 1c _ g Hg Hm (fun _ => eq_refl)). rewrite (rconst_1 K HK). reflexivity. }
  rewrite (restr_req vs _ _ E). destruct (msupb vs (sm m)) eqn:Em.
  - rewrite E, restr_graw; [reflexivity|]. unfold sup, mul_term. rewrite Forall_map. cbn [fst]. unfold all_ok, sup in *. rewrite Forall_forall in *.
    intros t Ht. apply (msup_mul vo Hv S HS); [apply Hg, Ht|exact Hm|apply Sg, Ht|apply msupb_spec, Em].
  - clear E. unfold restr, MonoStruct.graw, mul_term. rewrite map_map. cbn [fst snd].
    induction g as [|u g IH]; [reflexivity|]. cbn [map filter fst].
    destruct (msupb vs (sm (mul (fst u) m))) eqn:X.
    + exfalso. apply msupb_spec in X. assert (HX : msup vs (sm m)); [|apply msupb_spec in HX; congruence].
      pose proof (Forall_inv Hg) as Ou. cbn beta in Ou.
      apply (msup_mul_l vo Hv S HS vs m (fst u)); [exact Hm|exact Ou|]. rewrite (ms_mul_comm S ok sm HM) by assumption. exact X.
    + apply IH; [exact (Forall_inv_tail Hg)|exact (Forall_inv_tail Sg)].
Qed.

Lemma VM_restr vs G B x : Forall gok G -> Forall (sup vs) G -> VM G any B x -> VM G (fun m => msup vs (sm m)) B (restr vs x).
Proof.
  intros HG SG H. induction H as [|x (g & m & c & Hg & Hm & _ & Bm & E)|p q _ IHp _ IHq|p q E _ IH].
  - apply (sp_0 K).
  - rewrite Forall_forall in HG, SG. specialize (HG g Hg). specialize (SG g Hg).
    assert (E2 : req (restr vs x) (rmul (rconst c) (restr vs (T m g)))).
    { intros s. rewrite restr_coef, (E s), <- !(rscale_mul K HK _ _ s), !(coef_scale K HK), restr_coef. destruct (msupb vs s); [reflexivity|ring]. }
    pose proof (restr_T vs m g Hm (proj1 (proj1 HG)) SG) as RT. destruct (msupb vs (sm m)) eqn:Em.
    + apply sp_in. exists g, m, c. split; [exact Hg|]. split; [exact Hm|]. split; [apply msupb_spec, Em|]. split; [exact Bm|]. rewrite E2, RT. reflexivity.
    + apply (sp_eq K) with r0; [rewrite E2, RT; ring|apply sp_0].
  - rewrite restr_app. apply (sp_add K); assumption.
  - apply (sp_eq K) with (2 := IH). apply restr_req, E.
Qed.

Lemma le_trans L1 L2 m : ok L1 -> ok L2 -> ok m -> le L1 L2 -> le L2 m -> le L1 m.
Proof. intros O1 O2 Om [->|H] [->|H']; [left; reflexivity|right; exact H'|right; exact H|right; apply (gtt vo Hv S HS) with L2; assumption]. Qed.
Lemma le_total L1 L2 : ok L1 -> ok L2 -> le L1 L2 \/ le L2 L1.
Proof. intros O1 O2. destruct (gt_total ok gt (ms_order S ok sm HM) L1 L2 O1 O2) as [->|[H|H]]; [left; left; reflexivity|left; right; exact H|right; right; exact H]. Qed.

Lemma VM_max G (M : mono -> Prop) vs L x : Forall gok G -> Forall (sup vs) G -> ok L -> (forall m, ok m -> M m -> msup vs (sm m)) -> VM G M (lt L) x ->
  req x r0 \/ exists L', ok L' /\ msup vs (sm L') /\ gt L L' = true /\ VM G M (le L') x.
Proof.
  intros HG SG HL HMs H. induction H as [|x (g & m & c & Hg & Hm & Mm & B & E)|p q _ IHp _ IHq|p q E _ IH].
  - left. reflexivity.
  - right. pose proof HG as HG'. rewrite Forall_forall in HG', SG. specialize (HG' g Hg). specialize (SG g Hg).
    pose proof (lm_ok K vo S g HG') as Og. exists (mul m (lm g)). split; [apply mulok; assumption|].
    split; [apply (msup_mul vo Hv S HS); [assumption|assumption|apply HMs; assumption|apply lm_sup; [apply HG'|exact SG]]|].
    split; [exact B|]. apply sp_in. exists g, m, c. repeat (split; [assumption|]). split; [left; reflexivity|exact E].
  - destruct IHp as [Ep|(L1 & O1 & S1 & G1 & V1)].
    + destruct IHq as [Eq|(L2 & O2 & S2 & G2 & V2)].
      * left. rewrite Ep, Eq. reflexivity.
      * right. exists L2. repeat (split; [assumption|]). apply (sp_eq K) with (2 := V2). rewrite Ep. reflexivity.
    + destruct IHq as [Eq|(L2 & O2 & S2 & G2 & V2)].
      * right. exists L1. repeat (split; [assumption|]). apply (sp_eq K) with (2 := V1). rewrite Eq. ring.
      * right. destruct (le_total L1 L2 O1 O2) as [X|X].
        -- exists L1. repeat (split; [assumption|]). apply (sp_add K); [exact V1|]. apply (VM_imp G M M (le L2)); auto. intros m Hm. apply le_trans; assumption.
        -- exists L2. repeat (split; [assumption|]). apply (sp_add K); [|exact V2]. apply (VM_imp G M M (le L1)); auto. intros m Hm. apply le_trans; assumption.
  - destruct IH as [Ep|(L1 & O1 & S1 & G1 & V1)].
    + left. rewrite <- E. exact Ep.
    + right. exists L1. repeat (split; [assumption|]). apply (sp_eq K) with (2 := V1). exact E.
Qed.

Theorem buch_main vs G t f : Forall gok G -> Forall monic G -> Forall (sup vs) G -> crit G -> norm (t :: f) -> sup vs (t :: f) ->
  forall L, ok L -> msup vs (sm L) -> VM G (fun m => msup vs (sm m)) (le L) (R (t :: f)) -> exists g, In g G /\ dvd (lm g) (fst t).
Proof.
  intros HG HMo SG HC Nf Sf L. induction (ms_wf S ok sm HM vs L) as [L _ IH]. intros HL SL V.
  pose proof Nf as Nf'. apply (normal_cons ok gt K) in Nf'. destruct Nf' as (Ot & Ct & Mt & Nf').
  assert (LT : le L (fst t)).
  { destruct (gt_total ok gt (ms_order S ok sm HM) L (fst t) HL Ot) as [->|[H|H]]; [left; reflexivity|right; exact H|].
    exfalso. apply Ct. rewrite <- (coef_head t f Nf). apply (VM_le_coef G _ L _ _ HG V HL Ot H). }
  destruct (decomp G _ L _ HG HC HL V) as [HU|(g & c & Hg & Dg & HU)].
  - apply U_VM in HU. pose proof (VM_coef G any L _ HG HU HL) as C0.
    apply (VM_restr vs) in HU; [|exact HG|exact SG]. rewrite restr_graw in HU by exact Sf.
    destruct (VM_max G _ vs L _ HG SG HL (fun m _ H => H) HU) as [E|(L' & O' & S' & G' & V')].
    + exfalso. apply (graw_nil_req S ok sm K HM HK) in E; [discriminate|exact Nf].
    + apply (IH L'); try assumption. exact (conj O' (conj HL (conj S' (conj SL G')))).
  - destruct LT as [E|E]; [subst L; exists g; split; assumption|].
    (* the coefficient at L vanishes, hence c = 0 *)
    assert (C0 : coef K (R (t :: f)) (sm L) = 0c).
    { apply coef_above; [exact Nf|exact HL|]. constructor; [exact E|]. apply (pmax_trans vo Hv S HS (fst t)); try assumption. apply Nf'. }
    pose proof (proj1 (U_VM G L _) HU) as HU'. pose proof (VM_coef G any L _ HG HU' HL) as C1.
    pose proof HG as HG'. rewrite Forall_forall in HG', HMo. pose proof (lm_ok K vo S g (HG' g Hg)) as Og.
    destruct (qt_spec vo Hv S HS L (lm g) HL Og Dg) as [Oq Eq].
    pose proof (proj1 (T_coef (qt L (lm g)) g (HG' g Hg) Oq)) as CT. rewrite Eq, (HMo g Hg) in CT.
    assert (Hc : c = 0c).
    { unfold rsub, radd in C1. rewrite (coef_app K HK), (coef_opp K HK), C0, <- (rscale_mul K HK _ _ _), (coef_scale K HK), CT in C1.
      transitivity (copp K (cadd K 0c (copp K (cmul K c 1c)))); [ring|]. rewrite C1. ring. }
    assert (HU2 : U G L (R (t :: f))).
    { apply (sp_eq K) with (2 := HU). rewrite Hc.
      assert (Z0 : req (rmul (rconst 0c) (T (qt L (lm g)) g)) r0).
      { intros s. rewrite <- (rscale_mul K HK _ _ s), (coef_scale K HK). cbn [coef r0]. ring. }
      rewrite Z0. ring. }
    apply U_VM in HU2. apply (VM_restr vs) in HU2; [|exact HG|exact SG]. rewrite restr_graw in HU2 by exact Sf.
    destruct (VM_max G _ vs L _ HG SG HL (fun m _ H => H) HU2) as [E0|(L' & O' & S' & G' & V')].
    + exfalso. apply (graw_nil_req S ok sm K HM HK) in E0; [discriminate|exact Nf].
    + apply (IH L'); try assumption. exact (conj O' (conj HL (conj S' (conj SL G')))).
Qed.

Lemma VM_lift G t c L x : Forall gok G -> ok t -> ok L -> VM G any (le L) x -> VM G any (le (mul t L)) (rmul [(sm t, c)] x).
Proof.
  intros HG Ht HL H. apply (span_map K HK _ _ _ _ H). intros y (g & m & d & Hg & Hm & _ & B & E). apply sp_in.
  rewrite Forall_forall in HG. pose proof (lm_ok K vo S g (HG g Hg)) as Og.
  exists g, (mul t m), (cmul K c d). split; [exact Hg|]. split; [apply mulok; assumption|]. split; [exact I|]. split.
  - rewrite <- (ms_mul_assoc S ok sm HM) by assumption. destruct B as [->|B]; [left; reflexivity|right].
    apply (ms_gt_mul_l S ok sm HM); try assumption. apply mulok; assumption.
  - assert (X : req [(sm t, c)] (rmul (rconst c) (rmono K (sm t)))).
    { unfold rconst, rmono, Spec.rmul. cbn [flat_map map app fst snd]. apply (req_single K); [intros v; reflexivity|ring]. }
    rewrite X, E, <- (T_T K HK vo Hv S HS t m) by assumption. rewrite <- (rconst_mul K). ring.
Qed.
Lemma ideal_VM G x : Forall gok G -> ideal K (map (fun g => R g) G) x -> exists L, ok L /\ VM G any (le L) x.
Proof.
  intros HG H. pose proof HG as HG'. rewrite Forall_forall in HG'. induction H as [g Hg| |p q _ (L1 & O1 & V1) _ (L2 & O2 & V2)|a p _ (L & OL & V)|p q E _ (L & OL & V)].
  - apply in_map_iff in Hg. destruct Hg as (g' & <- & Hg). pose proof (lm_ok K vo S g' (HG' g' Hg)) as Og.
    exists (lm g'). split; [exact Og|]. apply sp_in. exists g', (m_one S), 1c. split; [exact Hg|]. split; [apply (ms_one_ok S ok sm HM)|]. split; [exact I|].
    split; [left; rewrite (ms_mul_comm S ok sm HM), (ms_mul_1_r S ok sm HM); auto; apply (ms_one_ok S ok sm HM)|].
    rewrite (rconst_1 K HK). unfold GroebnerProofs.T. transitivity (rmul (r1 K) (R g')); [ring|]. apply (rmul_proper K HK); [|reflexivity].
    unfold r1, rconst, rmono. apply (req_single K); [|reflexivity]. intros v. symmetry. apply (ms_one S ok sm HM).
  - exists (m_one S). split; [apply (ms_one_ok S ok sm HM)|apply (sp_0 K)].
  - destruct (le_total L1 L2 O1 O2) as [X|X]; [exists L1|exists L2]; (split; [assumption|]); apply (sp_add K); try assumption.
    + apply (VM_imp G any any (le L2)); auto. intros m Hm. apply le_trans; assumption.
    + apply (VM_imp G any any (le L1)); auto. intros m Hm. apply le_trans; assumption.
  - induction a as [|[s c] a IH].
    + exists L. split; [exact OL|apply (sp_0 K)].
    + destruct IH as (L2 & O2 & V2). destruct (mono_for s) as (t & Ht & Et).
      pose proof (VM_lift G t c L p HG Ht OL V) as V1. assert (O1 : ok (mul t L)) by (apply mulok; assumption).
      assert (EQ : req (rmul ((s, c) :: a) p) (radd (rmul [(sm t, c)] p) (rmul a p))).
      { transitivity (rmul (radd [(s, c)] a) p); [reflexivity|]. rewrite (req_single K s (sm t) c c); [ring| |reflexivity]. intros v. symmetry. apply Et. }
      destruct (le_total (mul t L) L2 O1 O2) as [X|X]; [exists (mul t L)|exists L2]; (split; [assumption|]); apply (sp_eq K) with (1 := fun m => eq_sym (EQ m)); apply (sp_add K); try assumption.
      * apply (VM_imp G any any (le L2)); auto. intros m Hm. apply le_trans; assumption.
      * apply (VM_imp G any any (le (mul t L))); auto. intros m Hm. apply le_trans; assumption.
  - exists L. split; [exact OL|]. apply (sp_eq K) with p; assumption.
Qed.

(** Buchberger's criterion: leading monomials of ideal elements are multiples of leading monomials of [G]. *)
Theorem buch vs G t f : Forall gok G -> Forall monic G -> Forall (sup vs) G -> crit G -> norm (t :: f) -> sup vs (t :: f) ->
  ideal K (map (fun g => R g) G) (R (t :: f)) -> exists g, In g G /\ dvd (lm g) (fst t).
Proof.
  intros HG HMo SG HC Nf Sf HI. destruct (ideal_VM G _ HG HI) as (L & OL & V).
  (* a bound above L, over the variables of L as well *)
  assert (E : exists vs', incl vs vs' /\ msup vs' (sm L)).
  { exists (vs ++ map fst (sm L)). split; [apply incl_appl, incl_refl|]. intros v Hn. apply in_or_app. right.
    destruct (in_dec N.eq_dec v (map fst (sm L))) as [H|H]; [exact H|]. rewrite exp_notin in Hn by exact H. congruence. }
  destruct E as (vs' & Hi & SL).
  assert (SG' : Forall (sup vs') G). { eapply Forall_impl; [|exact SG]. intros g Hg. eapply Forall_impl; [|exact Hg]. intros u Hu v Hn. apply Hi, Hu, Hn. }
  assert (Sf' : sup vs' (t :: f)). { eapply Forall_impl; [|exact Sf]. intros u Hu v Hn. apply Hi, Hu, Hn. }
  apply (VM_restr vs') in V; [|exact HG|exact SG']. rewrite restr_graw in V by exact Sf'.
  apply (buch_main vs' G t f HG HMo SG' HC Nf Sf' L OL SL V).
Qed.
End BP.
