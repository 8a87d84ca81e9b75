(** * Buchberger's algorithm: the update step, the main loop, interreduction. *)
From Coq Require Import Ring Sorting.Sorted Permutation Setoid Morphisms.
From Verif Require Import Prelude Coef Spec SpecProofs SpecOps SpecOpsProofs OrderSpec PairVec PairVecProofs Mono MonoProofs
  MonoStruct MonoStructProofs Heap HeapProofs HeapMulProofs Poly PolyMulProofs PolyOps MonoOpsProofs Groebner MonoGcdProofs AF GroebnerProofs BuchProofs.
Local Open Scope Z_scope.

Section BL.
Context {C : Type} (K : coefs C) (HK : ring_ok K) (HF : field_ok K).
Context (vo : vorder) (Hv : vorder_ok vo) (S : monos mono) (HS : S = lexS vo \/ S = grlexS vo).
Context (psrt : list cpair -> list cpair) (Hps : forall l, Permutation l (psrt l)).
Add Ring Kring3 : (ring_laws K HK).
Add Ring Rring3 : (rring K HK) (setoid (req_equiv K) (rring_ext K HK)).
Notation ok := (mok vo).
Notation gt := (m_gt S).
Notation norm := (normal ok gt K).
Notation R := (graw sm).
Notation req := (req K).
Notation rmul := (rmul K).
Notation dv := (cquo K).
Notation "0c" := (c0 K).
Notation "1c" := (c1 K).
Notation mul := (m_mul S).
Notation dvd a b := (mdivides (sm a) (sm b)).
Notation HM := (HM vo Hv S HS).
Notation gok := (gok K vo S).
Notation T := (T K).
Notation D := (D K S).
Notation qt := (qt S).
Notation W := (W K vo S).
Notation U := (U K vo S).
Notation pmax := (pmax S).
Notation monic := (monic K).
Notation crit := (crit K vo S).
Notation mulok := (ms_mul_ok S ok sm HM).
Notation lcm := (mono_lcm vo).
Let HD : domain_ok K := field_domain K HF.

Lemma mg_mul a b : mg (mul a b) = mg a + mg b.
Proof. rewrite (mmul vo S HS). reflexivity. Qed.
Lemma mg_nonneg a : ok a -> 0 <= mg a.
Proof.
  intros (_ & H & ->). induction H as [|t l Ht Hl IH]; cbn [deg_sum fold_right]; [lia|]. fold (deg_sum l). lia.
Qed.
Lemma mg_0 a : ok a -> mg a = 0 -> forall v, zexp a v = 0.
Proof.
  intros (_ & H & E) E0 v. destruct (md a) as [|t l] eqn:EL; [unfold zexp; rewrite EL; reflexivity|].
  exfalso. pose proof (deg_sum_pos (t :: l) H ltac:(discriminate)). lia.
Qed.
Lemma mg_lt a b : ok a -> ok b -> dvd a b -> a <> b -> mg a < mg b.
Proof.
  intros Ha Hb Dab Hn. destruct (qt_spec vo Hv S HS b a Hb Ha Dab) as [Oq E].
  assert (mg b = mg (qt b a) + mg a) by (rewrite <- mg_mul, E; reflexivity). pose proof (mg_nonneg _ Oq).
  destruct (Z.eq_dec (mg (qt b a)) 0) as [z|z]; [|lia]. exfalso. apply Hn. rewrite <- E.
  apply (ms_inj S ok sm HM); [assumption|apply mulok; assumption|]. intros v. rewrite (exp_ms_mul S ok sm HM) by assumption.
  rewrite (exp_sm_mok vo (qt b a)) by assumption. rewrite (mg_0 _ Oq z). reflexivity.
Qed.
Lemma mg_le a b : ok a -> ok b -> dvd a b -> mg a <= mg b.
Proof.
  intros Ha Hb Dab. destruct (mono_eqb a b) eqn:E; [apply mono_eqb_iff in E; subst; lia|].
  assert (a <> b) by (intros X; apply mono_eqb_iff in X; congruence). pose proof (mg_lt a b Ha Hb Dab H). lia.
Qed.

(** ** the product criterion *)
Lemma tail_mul G g L p : Forall gok G -> In g G -> ok L -> all_ok ok p -> pmax L p -> U G (mul L (lm g)) (rmul (R p) (R g)).
Proof.
  intros HG Hg HL Op Mp. rewrite Forall_forall in HG. pose proof (lm_ok K vo S g (HG g Hg)) as Og.
  induction p as [|t p IH]; [apply (sp_0 K)|].
  apply (sp_eq K) with (radd (rmul (rconst (snd t)) (T (fst t) g)) (rmul (R p) (R g))).
  - rewrite (graw_cons K HK t p). unfold GroebnerProofs.T. ring.
  - apply (sp_add K); [|apply IH; [exact (Forall_inv_tail Op)|exact (Forall_inv_tail Mp)]].
    apply sp_in. left. exists g, (fst t), (snd t). split; [exact Hg|]. split; [exact (Forall_inv Op)|]. split; [|reflexivity].
    apply (ms_gt_mul S ok sm HM); [exact HL|exact (Forall_inv Op)|exact Og|exact (Forall_inv Mp)].
Qed.
Lemma prod_crit G a b L : Forall gok G -> In a G -> In b G -> monic a -> monic b -> ok L -> dvd (lm a) L -> dvd (lm b) L ->
  mg (mono_gcd vo (lm a) (lm b)) = 0 -> U G L (D L a b).
Proof.
  intros HG Ha Hb Ma Mb HL Da Db Hg. pose proof HG as HG'. rewrite Forall_forall in HG'.
  pose proof (HG' a Ha) as Ga. pose proof (HG' b Hb) as Gb. pose proof (lm_ok K vo S a Ga) as Oa. pose proof (lm_ok K vo S b Gb) as Ob.
  set (L0 := mul (lm a) (lm b)). assert (O0 : ok L0) by (apply mulok; assumption).
  assert (D0 : dvd L0 L).
  { destruct (mono_gcd_spec vo Hv (lm a) (lm b) Oa Ob) as [Og Eg]. intros v. unfold L0. rewrite (exp_ms_mul S ok sm HM) by assumption.
    specialize (Eg v). rewrite (mg_0 _ Og Hg) in Eg. specialize (Da v). specialize (Db v). rewrite !(exp_sm_mok vo) in * by assumption.
    pose proof (zexp_nonneg vo (lm a) v Oa). pose proof (zexp_nonneg vo (lm b) v Ob). lia. }
  assert (Ea : dvd (lm a) L0). { unfold L0. rewrite (ms_mul_comm S ok sm HM) by assumption. apply (dvd_mul vo Hv S HS); assumption. }
  assert (Eb : dvd (lm b) L0) by (apply (dvd_mul vo Hv S HS); assumption).
  apply (W_lift_D K HK vo Hv S HS G [] L0 L a b HG); try assumption; [constructor|].
  assert (Qa : qt L0 (lm a) = lm b). { apply (qt_unique vo Hv S HS); [assumption..|]. apply (ms_mul_comm S ok sm HM); assumption. }
  assert (Qb : qt L0 (lm b) = lm a) by (apply (qt_unique vo Hv S HS); [assumption..|reflexivity]).
  unfold GroebnerProofs.D. rewrite Qa, Qb.
  destruct a as [|t a']; [destruct (proj2 Ga eq_refl)|]. destruct b as [|u b']; [destruct (proj2 Gb eq_refl)|].
  destruct (gok_cons K vo S t a' Ga) as (Ot & _ & Mt & Na). destruct (gok_cons K vo S u b' Gb) as (Ou & _ & Mu & Nb).
  unfold BuchProofs.monic in Ma, Mb. cbn [lc lm] in *.
  apply (sp_eq K) with (rsub K (rmul (R a') (R (u :: b'))) (rmul (R b') (R (t :: a')))).
  - unfold GroebnerProofs.T. rewrite (graw_cons K HK t a'), (graw_cons K HK u b'), Ma, Mb, !(rconst_1 K HK). ring.
  - apply (W_sub K HK vo S).
    + unfold L0. apply (tail_mul G (u :: b') (fst t) a' HG Hb Ot (proj1 Na) Mt).
    + unfold L0. rewrite (ms_mul_comm S ok sm HM) by assumption. apply (tail_mul G (t :: a') (fst u) b' HG Ha Ou (proj1 Nb) Mu).
Qed.

(** ** pairs *)
Definition ppair (G : list (poly C)) (p : cpair) : poly C * poly C := (nth (ci p) G [], nth (cj p) G []).
Definition pps G pairs := map (ppair G) pairs.
Definition inb (n : nat) (p : cpair) : Prop := (ci p < n)%nat /\ (cj p < n)%nat.
Definition INV (G : list (poly C)) (pairs : list cpair) : Prop :=
  forall a b L, In a G -> In b G -> ok L -> dvd (lm a) L -> dvd (lm b) L -> W G (pps G pairs) L (D L a b).

Lemma ppair_app G H p : inb (length G) p -> ppair (G ++ H) p = ppair G p.
Proof. intros [H1 H2]. unfold ppair. rewrite !app_nth1 by assumption. reflexivity. Qed.
Lemma pok_pps G pairs : Forall gok G -> Forall (inb (length G)) pairs -> pok K vo S (pps G pairs).
Proof.
  intros HG HP. unfold pok, pps. rewrite Forall_map. eapply Forall_impl; [|exact HP]. intros p [H1 H2]. cbn [ppair fst snd].
  rewrite Forall_forall in HG. split; apply HG, nth_In; assumption.
Qed.

Lemma mk_pairs_in k n lh hs (G : list (poly C)) sv p : In p (mk_pairs vo k n lh hs G sv) -> (k <= ci p < k + length G)%nat /\ cj p = n.
Proof.
  revert k sv. induction G as [|g G IH]; intros k sv; cbn [mk_pairs length]; [intros []|].
  intros [<-|H]; [cbn [ci cj]; lia|]. specialize (IH (Datatypes.S k) (tl sv) H). lia.
Qed.
Lemma mk_pairs_all k n lh hs (G : list (poly C)) sv i : (i < length G)%nat -> exists p, In p (mk_pairs vo k n lh hs G sv) /\ ci p = (k + i)%nat /\ cj p = n.
Proof.
  revert k sv i. induction G as [|g G IH]; intros k sv i Hi; cbn [length] in Hi; [lia|]. cbn [mk_pairs].
  destruct i as [|i].
  - eexists. split; [left; reflexivity|]. cbn [ci cj]. lia.
  - destruct (IH (Datatypes.S k) (tl sv) i ltac:(lia)) as (p & Hp & E1 & E2). exists p. split; [right; exact Hp|]. lia.
Qed.
Lemma min_in kept l u : In u (minimal_new S kept l) -> In u kept \/ In u l.
Proof.
  revert kept. induction l as [|t l IH]; intros kept H; cbn [minimal_new] in H; [left; exact H|].
  destruct (existsb _ kept).
  - destruct (IH kept H) as [X|X]; [left; exact X|right; right; exact X].
  - destruct (IH _ H) as [X|X]; [|right; right; exact X]. apply in_app_or in X. destruct X as [X|[<-|[]]]; [left; exact X|right; left; reflexivity].
Qed.
Lemma min_cover kept l t : Forall (fun u => ok (snd u)) kept -> Forall (fun u => ok (snd u)) l -> In t kept \/ In t l ->
  exists u, In u (minimal_new S kept l) /\ dvd (snd u) (snd t).
Proof.
  revert kept t. induction l as [|u l IH]; intros kept t Ok Ol Ht; cbn [minimal_new].
  - destruct Ht as [Ht|[]]. exists t. split; [exact Ht|intros v; lia].
  - pose proof (Forall_inv Ol) as Ou. pose proof (Forall_inv_tail Ol) as Ol'. cbn beta in Ou.
    destruct (existsb _ kept) eqn:E.
    + destruct Ht as [Ht|[->|Ht]]; [apply IH; auto| |apply IH; auto].
      apply existsb_exists in E. destruct E as (w & Hw & Ew). pose proof Ok as Ok'. rewrite Forall_forall in Ok'.
      apply (proj1 (ms_div S ok sm HM (snd t) (snd w) Ou (Ok' w Hw))) in Ew.
      destruct (IH kept w Ok Ol' (or_introl Hw)) as (x & Hx & Dx). exists x. split; [exact Hx|]. intros v. specialize (Ew v). specialize (Dx v). lia.
    + assert (Ok2 : Forall (fun u => ok (snd u)) (kept ++ [u])) by (apply Forall_app; split; [exact Ok|constructor; [exact Ou|constructor]]).
      destruct Ht as [Ht|[->|Ht]]; apply IH; try assumption; [left; apply in_or_app; left; exact Ht|left; apply in_or_app; right; left; reflexivity|right; exact Ht].
Qed.
Lemma In_nth_ex (a : poly C) G : In a G -> exists k, (k < length G)%nat /\ nth k G [] = a.
Proof. intros H. destruct (In_nth G a [] H) as (k & H1 & H2). exists k. auto. Qed.

Lemma update_ok G sv pairs h hs : Forall gok G -> Forall monic G -> gok h -> monic h -> Forall (inb (length G)) pairs ->
  (forall a b L, In a G -> In b G -> ok L -> dvd (lm a) L -> dvd (lm b) L -> W (G ++ [h]) (pps G pairs) L (D L a b)) ->
  let '(G', sv', pairs') := update vo S psrt G sv pairs h hs in
  G' = G ++ [h] /\ Forall (inb (length G')) pairs' /\ INV G' pairs'.
Proof.
  intros HG MG Gh Mh HP INVo. unfold update.
  set (lh := lm h). set (np := psrt (mk_pairs vo 0 (length G) lh hs G sv)).
  set (old := filter (keep_pair vo S G lh) pairs).
  set (cand := map (fun p => (p, lcm (glm G (ci p)) lh)) np).
  set (mn := minimal_new S [] cand).
  set (fin := filter (fun p => negb (mg (mono_gcd vo (glm G (ci p)) lh) =? 0)) (map fst mn)).
  set (G' := G ++ [h]). set (pairs' := old ++ fin).
  pose proof (lm_ok K vo S h Gh) as Oh. fold lh in Oh.
  assert (HG' : Forall gok G') by (apply Forall_app; split; [exact HG|constructor; [exact Gh|constructor]]).
  assert (MG' : Forall monic G') by (apply Forall_app; split; [exact MG|constructor; [exact Mh|constructor]]).
  assert (NP : forall p, In p np -> (ci p < length G)%nat /\ cj p = length G).
  { intros p Hp. apply (Permutation_in p (Permutation_sym (Hps _))) in Hp. apply mk_pairs_in in Hp. lia. }
  assert (Og : forall k, (k < length G)%nat -> ok (glm G k)).
  { intros k Hk. unfold glm. apply (lm_ok K vo S). rewrite Forall_forall in HG. apply HG, nth_In, Hk. }
  assert (CD : forall u, In u cand -> (ci (fst u) < length G)%nat /\ cj (fst u) = length G /\ snd u = lcm (glm G (ci (fst u))) lh).
  { intros u Hu. apply in_map_iff in Hu. destruct Hu as (p & <- & Hp). cbn [fst snd]. destruct (NP p Hp). auto. }
  assert (MNI : forall u, In u mn -> In u cand).
  { intros u Hu. destruct (min_in _ _ _ Hu) as [[]|X]. exact X. }
  assert (LG' : length G' = Datatypes.S (length G)) by (unfold G'; rewrite app_length; cbn; lia).
  assert (PB : Forall (inb (length G')) pairs').
  { apply Forall_app. split.
    - apply Forall_forall. intros p Hp. apply filter_In in Hp. destruct Hp as [Hp _]. rewrite Forall_forall in HP. destruct (HP p Hp). split; lia.
    - apply Forall_forall. intros p Hp. apply filter_In in Hp. destruct Hp as [Hp _]. apply in_map_iff in Hp. destruct Hp as (u & <- & Hu).
      destruct (CD u (MNI u Hu)) as (A & B & _). split; lia. }
  split; [reflexivity|]. split; [exact PB|].
  pose proof (pok_pps G' pairs' HG' PB) as PK.
  assert (IG : forall a, In a G -> In a G') by (intros a Ha; apply in_or_app; left; exact Ha).
  assert (IH' : In h G') by (apply in_or_app; right; left; reflexivity).
  (* a pair with h that survives step 3 is fine *)
  assert (SURV : forall u L, In u mn -> ok L -> dvd (glm G (ci (fst u))) L -> dvd lh L ->
      W G' (pps G' pairs') L (D L (nth (ci (fst u)) G []) h)).
  { intros u L Hu HL D1 D2. destruct (CD u (MNI u Hu)) as (A & B & _).
    assert (Hin : In (nth (ci (fst u)) G []) G) by (apply nth_In, A).
    destruct (Z.eqb_spec (mg (mono_gcd vo (glm G (ci (fst u))) lh)) 0) as [z|z].
    - apply (U_W K vo S). apply prod_crit; try assumption; [apply IG, Hin|]. rewrite Forall_forall in MG. apply MG, Hin.
    - apply sp_in. right. exists (nth (ci (fst u)) G []), h, 1c. split; [|split; [exact D1|split; [exact D2|rewrite (rconst_1 K HK); reflexivity]]].
      unfold pps. apply in_map_iff. exists (fst u). split.
      + unfold ppair, G'. rewrite app_nth1 by exact A. rewrite B. rewrite app_nth2 by lia. rewrite Nat.sub_diag. reflexivity.
      + apply in_or_app. right. apply filter_In. split; [apply in_map, Hu|]. apply Z.eqb_neq in z. rewrite z. reflexivity. }
  (* strong induction on the degree of L *)
  assert (MAIN : forall n a b L, (Z.to_nat (mg L) < n)%nat -> In a G' -> In b G' -> ok L -> dvd (lm a) L -> dvd (lm b) L ->
      W G' (pps G' pairs') L (D L a b)).
  { induction n as [|n IHn]; [intros; lia|].
    (* pairs of old elements *)
    assert (OLD : forall a b L, (Z.to_nat (mg L) < Datatypes.S n)%nat -> In a G -> In b G -> ok L -> dvd (lm a) L -> dvd (lm b) L ->
        W G' (pps G' pairs') L (D L a b)).
    { intros a b L HLn Ha Hb HL Da Db. apply (span_bind K _ _ _ (INVo a b L Ha Hb HL Da Db)).
      intros x [X|(a1 & b1 & c & Hab & Da1 & Db1 & E)]; [apply sp_in; left; exact X|].
      apply in_map_iff in Hab. destruct Hab as (p & Ep & Hp). unfold ppair in Ep. injection Ep as Ea Eb.
      pose proof HP as HP'. rewrite Forall_forall in HP'. destruct (HP' p Hp) as [Bi Bj].
      destruct (keep_pair vo S G lh p) eqn:KP.
      - apply sp_in. right. exists a1, b1, c. split; [|auto]. unfold pps. apply in_map_iff. exists p.
        split; [|apply in_or_app; left; apply filter_In; auto]. unfold G'. rewrite ppair_app by (split; assumption). unfold ppair. rewrite Ea, Eb. reflexivity.
      - unfold keep_pair in KP. apply negb_false_iff in KP. apply andb_true_iff in KP. destruct KP as [K1 K2]. apply andb_true_iff in K2. destruct K2 as [K2 K3].
        unfold glm in K1, K2, K3. rewrite Ea, Eb in K1, K2, K3.
        assert (Hin1 : In a1 G) by (rewrite <- Ea; apply nth_In, Bi). assert (Hin2 : In b1 G) by (rewrite <- Eb; apply nth_In, Bj).
        pose proof HG as HGf. rewrite Forall_forall in HGf. pose proof (HGf a1 Hin1) as Ga1. pose proof (HGf b1 Hin2) as Gb1.
        pose proof (lm_ok K vo S a1 Ga1) as Oa1. pose proof (lm_ok K vo S b1 Gb1) as Ob1.
        destruct (lcm_dvd vo Hv _ _ Oa1 Ob1) as (OL1 & X1 & X2 & X3 & _).
        destruct (lcm_dvd vo Hv _ _ Oa1 Oh) as (OL2 & Y1 & Y2 & Y3 & _).
        destruct (lcm_dvd vo Hv _ _ Oh Ob1) as (OL3 & Z1 & Z2 & Z3 & _).
        apply (proj1 (ms_div S ok sm HM _ _ OL1 Oh)) in K1.
        assert (LL : dvd (lcm (lm a1) (lm b1)) L) by (apply X3; assumption).
        assert (D2 : dvd (lcm (lm a1) lh) (lcm (lm a1) (lm b1))) by (apply Y3; assumption).
        assert (D3 : dvd (lcm lh (lm b1)) (lcm (lm a1) (lm b1))) by (apply Z3; assumption).
        assert (N2 : mg (lcm (lm a1) lh) < mg (lcm (lm a1) (lm b1))).
        { apply mg_lt; try assumption. intros EE. apply mono_eqb_iff in EE. rewrite EE in K2. discriminate. }
        assert (N3 : mg (lcm lh (lm b1)) < mg (lcm (lm a1) (lm b1))).
        { apply mg_lt; try assumption. intros EE. apply mono_eqb_iff in EE. rewrite EE in K3. discriminate. }
        pose proof (mg_le _ _ OL1 HL LL) as N1. pose proof (mg_nonneg _ OL2). pose proof (mg_nonneg _ OL3).
        apply (W_eq K vo S) with (rmul (rconst c) (radd (D L a1 h) (D L h b1))); [rewrite E, (D_chain K HK S L a1 h b1); reflexivity|].
        apply (W_scale K HK vo S). apply (W_add K vo S).
        + apply (W_lift_D K HK vo Hv S HS G' _ (lcm (lm a1) lh) L a1 h HG' PK OL2 HL); try assumption; [intros v; specialize (D2 v); specialize (LL v); lia|].
          apply IHn; try assumption; [lia|apply IG, Hin1].
        + apply (W_lift_D K HK vo Hv S HS G' _ (lcm lh (lm b1)) L h b1 HG' PK OL3 HL); try assumption; [intros v; specialize (D3 v); specialize (LL v); lia|].
          apply IHn; try assumption; [lia|apply IG, Hin2]. }
    assert (NEW : forall a L, (Z.to_nat (mg L) < Datatypes.S n)%nat -> In a G -> ok L -> dvd (lm a) L -> dvd lh L ->
        W G' (pps G' pairs') L (D L a h)).
    { intros a L HLn Ha HL Da Dh. destruct (In_nth_ex a G Ha) as (k & Hk & Ek).
      destruct (mk_pairs_all 0 (length G) lh hs G sv k Hk) as (p & Hp & Ec & _). apply (Permutation_in p (Hps _)) in Hp. fold np in Hp.
      assert (Hc : In (p, lcm (glm G (ci p)) lh) cand) by (apply in_map_iff; exists p; auto).
      assert (OC : Forall (fun u : cpair * mono => ok (snd u)) cand).
      { apply Forall_forall. intros u Hu. destruct (CD u Hu) as (A & _ & ->). apply (lcm_dvd vo Hv); [apply Og, A|exact Oh]. }
      destruct (min_cover [] cand _ (Forall_nil _) OC (or_intror Hc)) as (u & Hu & Du). fold mn in Hu. cbn [snd] in Du.
      destruct (CD u (MNI u Hu)) as (A & B & Eu). rewrite Eu in Du.
      cbn [Nat.add] in Ec. unfold glm in Du at 2. rewrite Ec, Ek in Du.
      set (b := nth (ci (fst u)) G []). assert (Hb : In b G) by (apply nth_In, A).
      pose proof (Og _ A) as Ob. unfold glm in Ob. fold b in Ob.
      pose proof HG as HGf. rewrite Forall_forall in HGf. pose proof (lm_ok K vo S a (HGf a Ha)) as Oa.
      destruct (lcm_dvd vo Hv _ _ Oa Oh) as (OL2 & Y1 & Y2 & Y3 & _).
      destruct (lcm_dvd vo Hv _ _ Ob Oh) as (OL3 & Z1 & Z2 & Z3 & _).
      assert (DL : dvd (lcm (lm a) lh) L) by (apply Y3; assumption).
      assert (Db : dvd (lm b) L). { intros v. specialize (Z1 v). specialize (Du v). unfold glm in Du. fold b in Du. specialize (DL v). lia. }
      apply (W_eq K vo S) with (radd (D L a b) (D L b h)); [rewrite (D_chain K HK S L a b h); reflexivity|].
      apply (W_add K vo S); [apply OLD; assumption|]. apply SURV; assumption. }
    intros a b L HLn Ha Hb HL Da Db. apply in_app_or in Ha, Hb.
    destruct Ha as [Ha|[<-|[]]], Hb as [Hb|[<-|[]]].
    - apply OLD; assumption.
    - apply NEW; assumption.
    - apply (W_eq K vo S) with (ropp K (D L b h)); [rewrite (D_opp K HK S L h b); reflexivity|]. apply (W_opp K HK vo S). apply NEW; assumption.
    - apply (W_eq K vo S) with r0; [rewrite (D_self K HK S); reflexivity|apply W_0]. }
  intros a b L Ha Hb HL Da Db. apply (MAIN (Datatypes.S (Z.to_nat (mg L)))); try assumption. lia.
Qed.

(** ** ideals *)
Lemma ideal_opp gs x : ideal K gs x -> ideal K gs (ropp K x).
Proof. intros H. apply (ideal_eq K gs (rmul (ropp K (r1 K)) x)); [ring|apply ideal_mul, H]. Qed.
Lemma ideal_sub gs x y : ideal K gs x -> ideal K gs y -> ideal K gs (rsub K x y).
Proof. intros H1 H2. apply ideal_add; [exact H1|apply ideal_opp, H2]. Qed.
Lemma ideal_incl gs gs' x : (forall g, In g gs -> ideal K gs' g) -> ideal K gs x -> ideal K gs' x.
Proof.
  intros H HI. induction HI as [g Hg| |p q _ IHp _ IHq|a p _ IH|p q E _ IH];
    [apply H, Hg|apply ideal_0|apply ideal_add; assumption|apply ideal_mul, IH|apply (ideal_eq K gs' p); assumption].
Qed.
Lemma U_ideal gs G L x : (forall g, In g G -> ideal K gs (R g)) -> U G L x -> ideal K gs x.
Proof.
  intros H HU. induction HU as [|x [(g & m & c & Hg & _ & _ & E)|(a & b & c & [] & _)]|p q _ IHp _ IHq|p q E _ IH].
  - apply ideal_0.
  - apply (ideal_eq K gs (rmul (rmul (rconst c) (rmono K (sm m))) (R g))); [rewrite E; unfold GroebnerProofs.T; ring|apply ideal_mul, H, Hg].
  - apply ideal_add; assumption.
  - apply (ideal_eq K gs p); assumption.
Qed.
Lemma above h : norm h -> exists L, ok L /\ pmax L h.
Proof.
  intros N. destruct h as [|t h]; [exists (m_one S); split; [apply (ms_one_ok S ok sm HM)|constructor]|].
  apply (normal_cons ok gt K) in N. destruct N as (Ot & _ & Mt & (Oh & _)).
  assert (Ox : ok (mono_var 0)) by apply (mok_var vo).
  assert (G1 : gt (mul (mono_var 0) (fst t)) (fst t) = true).
  { destruct (gt_ge_mul vo Hv S HS (mono_var 0) (fst t) Ox Ot) as [E|E]; [|exact E]. exfalso.
    pose proof (mg_mul (mono_var 0) (fst t)) as X. rewrite E in X. change (mg (mono_var 0)) with 1 in X. lia. }
  assert (O2 : ok (mul (mono_var 0) (fst t))) by (apply mulok; assumption).
  exists (mul (mono_var 0) (fst t)). split; [exact O2|]. constructor; [exact G1|]. apply (pmax_trans vo Hv S HS (fst t)); assumption.
Qed.
Lemma nf_ideal vs gs G f r : (forall g, In g G -> ideal K gs (R g)) -> norm f -> nf_of K vo S vs G f r ->
  ideal K gs (rsub K (R f) (R r)).
Proof.
  intros H N (_ & _ & _ & A & _). destruct (above f N) as (L & OL & ML). destruct (A L OL ML) as [_ HU]. apply (U_ideal gs G L); assumption.
Qed.
Lemma nf_ideal_r vs gs G f r : (forall g, In g G -> ideal K gs (R g)) -> norm f -> nf_of K vo S vs G f r ->
  ideal K gs (R f) -> ideal K gs (R r).
Proof.
  intros H N A If. pose proof (nf_ideal vs gs G f r H N A) as X.
  apply (ideal_eq K gs (rsub K (R f) (rsub K (R f) (R r)))); [ring|apply ideal_sub; assumption].
Qed.

(** ** the main loop *)
Definition BBst vs gs G pairs : Prop :=
  Forall gok G /\ Forall monic G /\ Forall (sup vs) G /\ Forall (inb (length G)) pairs /\ INV G pairs /\
  (forall g, In g G -> ideal K gs (R g)).

Lemma take_min_perm best before seen l p rest : take_min best before seen l = (p, rest) ->
  Permutation (best :: before ++ seen ++ l) (p :: rest).
Proof.
  revert best before seen. induction l as [|q l IH]; intros best before seen; cbn [take_min].
  - intros [= <- <-]. rewrite app_nil_r. reflexivity.
  - destruct (cp_less q best).
    + intros H. apply IH in H. rewrite <- H. cbn [app]. rewrite <- app_assoc. cbn [app].
      transitivity (best :: q :: before ++ seen ++ l).
      * constructor. rewrite !app_assoc. symmetry. apply Permutation_middle.
      * rewrite perm_swap. constructor. apply Permutation_middle.
    + intros H. apply IH in H. rewrite <- H. constructor. apply Permutation_app_head. rewrite <- app_assoc. reflexivity.
Qed.

Definition dvs (vs : list var) (a b : mono) : Prop := forall v, In v vs -> (exp (sm a) v <= exp (sm b) v)%N.
Lemma dvs_dvd vs a b : msup vs (sm a) -> dvs vs a b -> dvd a b.
Proof.
  intros H D' v. destruct (N.eq_dec (exp (sm a) v) 0) as [e|e]; [rewrite e; lia|]. apply D', H, e.
Qed.
Lemma graw_inv c (r : poly C) (x : rpoly C) : c <> 0c -> req x (rmul (rconst c) (R r)) -> req (R r) (rmul (rconst (dv 1c c)) x).
Proof.
  intros Hc E. rewrite E. transitivity (rmul (rmul (rconst (dv 1c c)) (rconst c)) (R r)); [|ring].
  rewrite (rconst_mul K), (field_quo K HF) by exact Hc. rewrite (rconst_1 K HK). reflexivity.
Qed.

Lemma bb_step vs gs G sv p rest h0 h : let pairs := p :: rest in
  BBst vs gs G pairs -> s_poly K dv vo S (nth (ci p) G []) (nth (cj p) G []) = Ok h0 -> nf_of K vo S vs G h0 h ->
  (h = [] -> BBst vs gs G rest) /\
  (forall hs, h <> [] -> let '(G', sv', pairs') := update vo S psrt G sv rest (make_monic K dv h) hs in
     BBst vs gs G' pairs' /\ G' = G ++ [make_monic K dv h] /\ bad_ext (dvs vs) (rev (map lm G')) (rev (map lm G))).
Proof.
  intros pairs (HG & MG & SG & HP & HI & HId) Es Hn.
  pose proof (Forall_inv HP) as [Bi Bj]. pose proof (Forall_inv_tail HP) as HPr.
  set (a := nth (ci p) G []) in *. set (b := nth (cj p) G []) in *.
  assert (Ha : In a G) by (apply nth_In, Bi). assert (Hb : In b G) by (apply nth_In, Bj).
  pose proof HG as HGf. pose proof MG as MGf. pose proof SG as SGf. rewrite Forall_forall in HGf, MGf, SGf.
  pose proof (lm_ok K vo S a (HGf a Ha)) as Oa. pose proof (lm_ok K vo S b (HGf b Hb)) as Ob.
  destruct (s_poly_monic K HK HF vo Hv S HS vs a b (HGf a Ha) (HGf b Hb) (SGf a Ha) (SGf b Hb) (MGf a Ha) (MGf b Hb)) as (h0' & Es' & Nh0 & Sh0 & Mh0 & Rh0).
  rewrite Es in Es'. injection Es' as <-.
  destruct (lcm_dvd vo Hv _ _ Oa Ob) as (OL & Da & Db & Lmin & _). set (L0 := lcm (lm a) (lm b)) in *.
  destruct (proj1 (proj2 (proj2 (proj2 Hn))) L0 OL Mh0) as [Mh HU].
  (* eliminating the pair p once D L0 a b is a smaller combination *)
  assert (ELIM : forall G2, incl G G2 -> Forall gok G2 -> U G2 L0 (D L0 a b) -> forall x y L, In x G -> In y G -> ok L -> dvd (lm x) L -> dvd (lm y) L ->
     W G2 (pps G rest) L (D L x y)).
  { intros G2 Hi HG2 HU2 x y L Hx Hy HL Dx Dy. apply (span_bind K _ _ _ (HI x y L Hx Hy HL Dx Dy)).
    intros z [(g & m & c & Hg & X)|(a1 & b1 & c & Hab & Da1 & Db1 & E)].
    - apply sp_in. left. exists g, m, c. split; [apply Hi, Hg|exact X].
    - destruct Hab as [Hab|Hab]; [|apply sp_in; right; exists a1, b1, c; auto].
      unfold ppair in Hab. fold a b in Hab. injection Hab as <- <-. apply (W_eq K vo S) with (1 := fun m => eq_sym (E m)). apply (W_scale K HK vo S).
      apply (U_W K vo S). apply (W_lift_D K HK vo Hv S HS G2 [] L0 L a b HG2); try assumption; try (apply HGf; assumption); [constructor|apply Lmin; assumption]. }
  split.
  - intros ->. assert (HU' : U G L0 (D L0 a b)). { apply (W_eq K vo S) with (2 := HU). rewrite Rh0. unfold rsub. cbn. rewrite app_nil_r. reflexivity. }
    split; [exact HG|]. split; [exact MG|]. split; [exact SG|]. split; [exact HPr|]. split; [|exact HId].
    intros x y L Hx Hy. apply ELIM; try assumption. apply incl_refl.
  - intros hs Hne. assert (Gh : gok h) by (split; [apply Hn|exact Hne]). assert (Sh : sup vs h) by apply Hn.
    destruct (make_monic_ok K HK HF vo S vs h Gh Sh) as (Gm & Sm & Lm & Mm & _ & c & Hc & Rm). set (h' := make_monic K dv h) in *.
    pose proof (lm_ok K vo S h Gh) as Oh.
    assert (IDh : ideal K gs (R h)).
    { apply (nf_ideal_r vs gs G h0 h); [exact HId|exact Nh0|exact Hn|]. apply (ideal_eq K gs (D L0 a b)); [intros m; symmetry; apply Rh0|].
      unfold GroebnerProofs.D, GroebnerProofs.T. apply ideal_sub; apply ideal_mul, HId; assumption. }
    assert (HG2 : Forall gok (G ++ [h'])) by (apply Forall_app; split; [exact HG|constructor; [exact Gm|constructor]]).
    assert (HU2 : U (G ++ [h']) L0 (D L0 a b)).
    { apply (W_eq K vo S) with (radd (rsub K (R h0) (R h)) (R h)); [rewrite Rh0; ring|]. apply (W_add K vo S).
      - apply (W_mono K vo S G (G ++ [h']) [] []); [apply incl_appl, incl_refl|apply incl_refl|exact HU].
      - apply sp_in. left. exists h', (m_one S), (dv 1c c). split; [apply in_or_app; right; left; reflexivity|].
        pose proof (ms_one_ok S ok sm HM) as O1. split; [exact O1|]. split.
        + rewrite Lm, (ms_mul_comm S ok sm HM), (ms_mul_1_r S ok sm HM) by assumption. destruct h as [|t h]; [congruence|]. exact (Forall_inv Mh).
        + rewrite (graw_inv c h (R h') Hc Rm). apply (rmul_proper K HK); [reflexivity|]. unfold GroebnerProofs.T.
          transitivity (rmul (r1 K) (R h')); [ring|]. apply (rmul_proper K HK); [|reflexivity].
          unfold r1, rconst, rmono. apply (req_single K); [|reflexivity]. intros v. symmetry. apply (ms_one S ok sm HM). }
    pose proof (update_ok G sv rest h' hs HG MG Gm Mm HPr (ELIM (G ++ [h']) (incl_appl _ (incl_refl _)) HG2 HU2)) as UPD.
    destruct (update vo S psrt G sv rest h' hs) as [[G' sv'] pairs']. destruct UPD as (-> & PB & INV'). split; [|split; [reflexivity|]].
    + split; [exact HG2|]. split; [apply Forall_app; split; [exact MG|constructor; [exact Mm|constructor]]|].
      split; [apply Forall_app; split; [exact SG|constructor; [exact Sm|constructor]]|]. split; [exact PB|]. split; [exact INV'|].
      intros g Hg. apply in_app_or in Hg. destruct Hg as [Hg|[<-|[]]]; [apply HId, Hg|].
      apply (ideal_eq K gs (rmul (rconst c) (R h))); [intros m; symmetry; apply Rm|apply ideal_mul, IDh].
    + rewrite map_app, rev_app_distr. cbn [map rev app]. exists (lm h'). split; [reflexivity|].
      intros u Hu Hd. apply in_rev in Hu. apply in_map_iff in Hu. destruct Hu as (g & <- & Hg).
      destruct Hn as (_ & _ & Hir & _). unfold irred in Hir. destruct h as [|t h]; [congruence|]. apply (Forall_inv Hir g Hg).
      rewrite Lm in Hd. cbn [lm] in Hd. apply (dvs_dvd vs); [apply lm_sup; [apply HGf, Hg|apply SGf, Hg]|exact Hd].
Qed.

Lemma BBst_perm vs gs G pairs pairs' : Permutation pairs pairs' -> BBst vs gs G pairs -> BBst vs gs G pairs'.
Proof.
  intros P (HG & MG & SG & HP & HI & HId). split; [exact HG|]. split; [exact MG|]. split; [exact SG|]. split; [rewrite <- P; exact HP|]. split; [|exact HId].
  intros a b L Ha Hb HL Da Db. apply (W_mono K vo S G G (pps G pairs)); [apply incl_refl| |apply HI; assumption].
  intros x Hx. unfold pps in *. apply (Permutation_in x (Permutation_map _ P)), Hx.
Qed.

Lemma bb_loop_ok vs gs : forall ms, Acc (bad_ext (dvs vs)) ms -> forall k G sv pairs, rev (map lm G) = ms -> (length pairs <= k)%nat ->
  BBst vs gs G pairs -> exists G' n0, (forall n, (n0 <= n)%nat -> bb_loop K dv vo S psrt n G sv pairs = Ok G') /\ incl G G' /\ BBst vs gs G' [].
Proof.
  intros ms HA. induction HA as [ms _ IHm]. induction k as [|k IHk]; intros G sv pairs Em Hk Hst.
  - destruct pairs; [|cbn in Hk; lia]. exists G, 1%nat. split; [intros [|n] Hn; [lia|reflexivity]|]. split; [apply incl_refl|exact Hst].
  - destruct pairs as [|p0 r0]; [exists G, 1%nat; split; [intros [|n] Hn; [lia|reflexivity]|]; split; [apply incl_refl|exact Hst]|].
    destruct (take_min p0 [] [] r0) as [p rest] eqn:ET. pose proof (take_min_perm _ _ _ _ _ _ ET) as PM. cbn [app] in PM.
    pose proof (BBst_perm vs gs G _ _ PM Hst) as Hst2. pose proof Hst2 as (HG & MG & SG & HP & _).
    pose proof (Forall_inv HP) as [Bi Bj]. pose proof HG as HGf. pose proof SG as SGf. rewrite Forall_forall in HGf, SGf.
    assert (Ha : In (nth (ci p) G []) G) by (apply nth_In, Bi). assert (Hb : In (nth (cj p) G []) G) by (apply nth_In, Bj).
    destruct (s_poly_ok K HK HF vo Hv S HS vs _ _ (HGf _ Ha) (HGf _ Hb) (SGf _ Ha) (SGf _ Hb)) as (h0 & Es & Nh0 & Sh0 & _).
    destruct (nf_sugar_ok K HK HF vo Hv S HS vs G sv h0 (csug p) HG SG Nh0 Sh0) as (h & hs & n1 & En & Hnf).
    destruct (bb_step vs gs G sv p rest h0 h Hst2 Es Hnf) as [B1 B2].
    assert (LR : (length rest <= k)%nat) by (apply Permutation_length in PM; cbn in *; lia).
    assert (STEP : forall n, (n1 <= n)%nat -> bb_loop K dv vo S psrt (Datatypes.S n) G sv (p0 :: r0) =
        match h with
        | [] => bb_loop K dv vo S psrt n G sv rest
        | _ => let '(G', sv', pairs') := update vo S psrt G sv rest (make_monic K dv h) hs in bb_loop K dv vo S psrt n G' sv' pairs'
        end).
    { intros n Hn. cbn [bb_loop]. rewrite ET.
      unfold aget. rewrite (nth_error_nth' G [] Bi), (nth_error_nth' G [] Bj). cbn [obind]. rewrite Es. cbn [obind]. rewrite En by exact Hn. cbn [obind]. reflexivity. }
    destruct h as [|t h].
    + destruct (IHk G sv rest Em LR (B1 eq_refl)) as (G' & n0 & E & I & F). exists G', (Datatypes.S (Nat.max n0 n1)). split; [|split; assumption].
      intros [|n] Hn; [lia|]. rewrite STEP by lia. apply E. lia.
    + specialize (B2 hs ltac:(discriminate)). destruct (update vo S psrt G sv rest (make_monic K dv (t :: h)) hs) as [[G2 sv2] pairs2].
      destruct B2 as (St2 & EG & Hbad).
      destruct (IHm (rev (map lm G2)) ltac:(rewrite <- Em; exact Hbad) (length pairs2) G2 sv2 pairs2 eq_refl (le_n _) St2) as (G' & n0 & E & I & F).
      exists G', (Datatypes.S (Nat.max n0 n1)). split; [|split; [|exact F]].
      * intros [|n] Hn; [lia|]. rewrite STEP by lia. apply E. lia.
      * intros g Hg. apply I. rewrite EG. apply in_or_app. left. exact Hg.
Qed.

Lemma init_ok vs gs rest : Forall gok rest -> Forall monic rest -> Forall (sup vs) rest -> (forall g, In g rest -> ideal K gs (R g)) ->
  forall G sv pairs, BBst vs gs G pairs ->
  let '(G', sv', pairs') := init_loop vo S psrt G sv pairs rest in G' = G ++ rest /\ BBst vs gs G' pairs'.
Proof.
  induction rest as [|h rest IH]; intros Hr Mr Sr Ir G sv pairs Hst; cbn [init_loop]; [rewrite app_nil_r; auto|].
  pose proof Hst as (HG & MG & SG & HP & HI & HId).
  pose proof (update_ok G sv pairs h (p_totdeg h) HG MG (Forall_inv Hr) (Forall_inv Mr) HP) as UPD.
  assert (PRE : forall a b L, In a G -> In b G -> ok L -> dvd (lm a) L -> dvd (lm b) L -> W (G ++ [h]) (pps G pairs) L (D L a b)).
  { intros a b L Ha Hb HL Da Db. apply (W_mono K vo S G _ (pps G pairs)); [apply incl_appl, incl_refl|apply incl_refl|apply HI; assumption]. }
  specialize (UPD PRE). destruct (update vo S psrt G sv pairs h (p_totdeg h)) as [[G' sv'] pairs']. destruct UPD as (-> & PB & INV').
  specialize (IH (Forall_inv_tail Hr) (Forall_inv_tail Mr) (Forall_inv_tail Sr) (fun g Hg => Ir g (or_intror Hg)) (G ++ [h]) sv' pairs').
  assert (St2 : BBst vs gs (G ++ [h]) pairs').
  { split; [apply Forall_app; split; [exact HG|constructor; [exact (Forall_inv Hr)|constructor]]|].
    split; [apply Forall_app; split; [exact MG|constructor; [exact (Forall_inv Mr)|constructor]]|].
    split; [apply Forall_app; split; [exact SG|constructor; [exact (Forall_inv Sr)|constructor]]|]. split; [exact PB|]. split; [exact INV'|].
    intros g Hg. apply in_app_or in Hg. destruct Hg as [Hg|[<-|[]]]; [apply HId, Hg|apply Ir; left; reflexivity]. }
  specialize (IH St2). destruct (init_loop vo S psrt (G ++ [h]) sv' pairs' rest) as [[G2 sv2] p2]. destruct IH as (-> & St3).
  rewrite <- app_assoc in *. split; [reflexivity|exact St3].
Qed.

(** ** Groebner bases *)
Definition GB vs gs G : Prop :=
  Forall gok G /\ Forall monic G /\ Forall (sup vs) G /\ (forall g, In g G -> ideal K gs (R g)) /\
  (forall t f, norm (t :: f) -> ideal K gs (R (t :: f)) -> exists g, In g G /\ dvd (lm g) (fst t)).

Lemma sup_ext vs vs' p : incl vs vs' -> @sup C vs p -> sup vs' p.
Proof. intros Hi H. eapply Forall_impl; [|exact H]. intros u Hu v Hn. apply Hi, Hu, Hn. Qed.
Lemma sup_vars (p : poly C) : sup (flat_map (fun t => map fst (sm (fst t))) p) p.
Proof.
  apply Forall_forall. intros t Ht v Hn. apply in_flat_map. exists t. split; [exact Ht|].
  destruct (in_dec N.eq_dec v (map fst (sm (fst t)))) as [H|H]; [exact H|]. rewrite exp_notin in Hn by exact H. congruence.
Qed.

Lemma crit_GB vs gs G : Forall gok G -> Forall monic G -> Forall (sup vs) G -> crit G -> (forall g, In g G -> ideal K gs (R g)) ->
  (forall g, In g gs -> ideal K (map (fun g => R g) G) g) -> GB vs gs G.
Proof.
  intros HG MG SG HC HI HB. split; [exact HG|]. split; [exact MG|]. split; [exact SG|]. split; [exact HI|].
  intros t f N If. apply (ideal_incl gs (map (fun g => R g) G)) in If; [|exact HB].
  set (vs' := vs ++ flat_map (fun t => map fst (sm (fst t))) (t :: f)).
  apply (buch K HK HF vo Hv S HS vs' G t f HG MG); try assumption.
  - eapply Forall_impl; [|exact SG]. intros g. apply sup_ext. apply incl_appl, incl_refl.
  - apply (sup_ext (flat_map (fun t => map fst (sm (fst t))) (t :: f))); [apply incl_appr, incl_refl|apply sup_vars].
Qed.

(** ** interreduction *)
Lemma drop_spec rest : forall kept, Forall gok kept -> Forall gok rest ->
  (forall g, In g (drop_redundant S kept rest) -> In g kept \/ In g rest) /\
  (forall g, In g kept \/ In g rest -> exists g', In g' (drop_redundant S kept rest) /\ dvd (lm g') (lm g)).
Proof.
  induction rest as [|h rest IH]; intros kept Hk Hr; cbn [drop_redundant].
  - split; [auto|]. intros g [Hg|[]]. exists g. split; [exact Hg|intros v; lia].
  - pose proof (Forall_inv Hr) as Gh. pose proof (Forall_inv_tail Hr) as Hr'.
    destruct (existsb _ (kept ++ rest)) eqn:E.
    + destruct (IH kept Hk Hr') as [A B]. split.
      * intros g Hg. destruct (A g Hg); auto. right; right; assumption.
      * intros g [Hg|[<-|Hg]]; [apply B; left; exact Hg| |apply B; right; exact Hg].
        apply existsb_exists in E. destruct E as (g1 & Hg1 & D1). assert (G1 : gok g1).
        { apply in_app_or in Hg1. rewrite Forall_forall in Hk, Hr'. destruct Hg1; auto. }
        apply (proj1 (ms_div S ok sm HM _ _ (lm_ok K vo S h Gh) (lm_ok K vo S g1 G1))) in D1. apply in_app_or in Hg1.
        destruct (B g1 Hg1) as (g2 & Hg2 & D2). exists g2. split; [exact Hg2|]. intros v. specialize (D1 v). specialize (D2 v). lia.
    + assert (Hk2 : Forall gok (kept ++ [h])) by (apply Forall_app; split; [exact Hk|constructor; [exact Gh|constructor]]).
      destruct (IH (kept ++ [h]) Hk2 Hr') as [A B]. split.
      * intros g Hg. destruct (A g Hg) as [X|X]; [|right; right; exact X]. apply in_app_or in X. destruct X as [X|[<-|[]]]; [left; exact X|right; left; reflexivity].
      * intros g Hg. apply B. destruct Hg as [Hg|[<-|Hg]]; [left; apply in_or_app; left; exact Hg|left; apply in_or_app; right; left; reflexivity|right; exact Hg].
Qed.
(** after dropping, no leading monomial divides another one (at a different position) *)
Definition sepm (ms : list mono) (done : nat) : Prop :=
  forall i j a b, (i < done)%nat -> i <> j -> nth_error ms i = Some a -> nth_error ms j = Some b -> ~ dvd b a.
Lemma sep_sub (l1 l2 : list mono) x (P : nat) : (P <= length l1)%nat -> sepm (l1 ++ x :: l2) P -> sepm (l1 ++ l2) P.
Proof.
  intros HP H i j a b Hi Hij Ea Eb. rewrite nth_error_app1 in Ea by lia.
  destruct (Nat.lt_ge_cases j (length l1)) as [Hj|Hj].
  - rewrite nth_error_app1 in Eb by lia. apply (H i j a b Hi Hij); rewrite nth_error_app1 by lia; assumption.
  - rewrite nth_error_app2 in Eb by lia. apply (H i (Datatypes.S j) a b Hi ltac:(lia)); [rewrite nth_error_app1 by lia; exact Ea|].
    rewrite nth_error_app2 by lia. replace (Datatypes.S j - length l1)%nat with (Datatypes.S (j - length l1)) by lia. exact Eb.
Qed.
Lemma drop_sep rest : forall kept, Forall gok kept -> Forall gok rest -> sepm (map lm (kept ++ rest)) (length kept) ->
  sepm (map lm (drop_redundant S kept rest)) (length (drop_redundant S kept rest)).
Proof.
  induction rest as [|h rest IH]; intros kept Hk Hr Hs; cbn [drop_redundant]; [rewrite app_nil_r in Hs; exact Hs|].
  pose proof (Forall_inv Hr) as Gh. pose proof (Forall_inv_tail Hr) as Hr'.
  destruct (existsb _ (kept ++ rest)) eqn:E.
  - apply IH; try assumption. rewrite map_app in *. cbn [map] in Hs. apply sep_sub with (lm h); [rewrite map_length; lia|exact Hs].
  - assert (Hk2 : Forall gok (kept ++ [h])) by (apply Forall_app; split; [exact Hk|constructor; [exact Gh|constructor]]).
    apply IH; try assumption. rewrite <- app_assoc. cbn [app]. rewrite app_length. cbn [length].
    intros i j a b Hi Hij Ea Eb. destruct (Nat.eq_dec i (length kept)) as [->|Hn]; [|apply (Hs i j a b); [lia|assumption..]].
    rewrite map_app, nth_error_app2, map_length, Nat.sub_diag in Ea by (rewrite map_length; lia). injection Ea as <-.
    assert (HB : exists g1, In g1 (kept ++ rest) /\ lm g1 = b).
    { rewrite map_app in Eb. cbn [map] in Eb. destruct (Nat.lt_ge_cases j (length kept)) as [Hj|Hj].
      - rewrite nth_error_app1 in Eb by (rewrite map_length; lia). apply nth_error_In in Eb. apply in_map_iff in Eb. destruct Eb as (g1 & <- & H1). exists g1. split; [apply in_or_app; left; exact H1|reflexivity].
      - rewrite nth_error_app2, map_length in Eb by (rewrite map_length; lia). destruct (j - length kept)%nat as [|q] eqn:EQ; [lia|]. cbn [nth_error] in Eb.
        apply nth_error_In in Eb. apply in_map_iff in Eb. destruct Eb as (g1 & <- & H1). exists g1. split; [apply in_or_app; right; exact H1|reflexivity]. }
    destruct HB as (g1 & H1 & <-). intros Hd. assert (G1 : gok g1). { apply in_app_or in H1. rewrite Forall_forall in Hk, Hr'. destruct H1; auto. }
    assert (TT : existsb (fun g' => fst (m_div S (lm h) (lm g'))) (kept ++ rest) = true); [|congruence].
    apply existsb_exists. exists g1. split; [exact H1|]. apply (proj1 (ms_div S ok sm HM _ _ (lm_ok K vo S h Gh) (lm_ok K vo S g1 G1))). exact Hd.
Qed.

(** [reduced G]: no term of an element is a multiple of the leading monomial of another one. *)
Definition redm (ms : list mono) (G : list (poly C)) (n : nat) : Prop :=
  forall i j g b t, (i < n)%nat -> i <> j -> nth_error G i = Some g -> nth_error ms j = Some b -> In t g -> ~ dvd b (fst t).

Lemma nth_error_skip {A} (l1 : list A) x l2 j b : j <> length l1 -> nth_error (l1 ++ x :: l2) j = Some b -> In b (l1 ++ l2).
Proof.
  intros Hj E. destruct (Nat.lt_ge_cases j (length l1)) as [H|H].
  - rewrite nth_error_app1 in E by lia. apply in_or_app. left. apply nth_error_In in E. exact E.
  - rewrite nth_error_app2 in E by lia. destruct (j - length l1)%nat as [|q] eqn:EQ; [lia|]. cbn [nth_error] in E. apply nth_error_In in E. apply in_or_app. right. exact E.
Qed.

Lemma reduce_ok vs gs ms rest : forall done,
  Forall gok (done ++ rest) -> Forall monic (done ++ rest) -> Forall (sup vs) (done ++ rest) -> (forall g, In g (done ++ rest) -> ideal K gs (R g)) ->
  map lm (done ++ rest) = ms -> sepm ms (length ms) -> redm ms (done ++ rest) (length done) ->
  exists G n0, (forall n, (n0 <= n)%nat -> reduce_all K dv S n done rest = Ok G) /\
    Forall gok G /\ Forall monic G /\ Forall (sup vs) G /\ (forall g, In g G -> ideal K gs (R g)) /\ map lm G = ms /\ redm ms G (length G).
Proof.
  induction rest as [|g rest IH]; intros done HG MG SG HI EM HS' HR.
  - rewrite app_nil_r in *. exists done, O. split; [intros [|n] _; reflexivity|]. auto 10.
  - assert (Gg : gok g) by (rewrite Forall_forall in HG; apply HG, in_elt).
    assert (Sg : sup vs g) by (rewrite Forall_forall in SG; apply SG, in_elt).
    assert (Hsub : forall x, In x (done ++ rest) -> In x (done ++ g :: rest)).
    { intros x Hx. apply in_app_or in Hx. apply in_or_app. destruct Hx; [left|right; right]; assumption. }
    assert (HGo : Forall gok (done ++ rest)) by (apply Forall_forall; intros x Hx; rewrite Forall_forall in HG; apply HG, Hsub, Hx).
    assert (SGo : Forall (sup vs) (done ++ rest)) by (apply Forall_forall; intros x Hx; rewrite Forall_forall in SG; apply SG, Hsub, Hx).
    destruct (normal_form_ok K HK HF vo Hv S HS vs (done ++ rest) g HGo SGo (proj1 Gg) Sg) as (r & n1 & En & Hnf).
    destruct g as [|t g]; [destruct (proj2 Gg eq_refl)|].
    assert (Lg : nth_error ms (length done) = Some (fst t)).
    { rewrite <- EM, map_app, nth_error_app2, map_length, Nat.sub_diag by (rewrite map_length; lia). reflexivity. }
    assert (NDV : forall x, In x (done ++ rest) -> ~ dvd (lm x) (fst t)).
    { intros x Hx. assert (exists j, j <> length done /\ nth_error ms j = Some (lm x)) as (j & Hj & Ej).
      { apply in_app_or in Hx. rewrite <- EM, map_app. destruct Hx as [Hx|Hx].
        - apply In_nth_error in Hx. destruct Hx as [j Ej]. exists j. assert (j < length done)%nat by (apply nth_error_Some; congruence).
          split; [lia|]. rewrite nth_error_app1 by (rewrite map_length; lia). apply map_nth_error, Ej.
        - apply In_nth_error in Hx. destruct Hx as [j Ej]. exists (length done + Datatypes.S j)%nat. split; [lia|].
          rewrite nth_error_app2 by (rewrite map_length; lia). rewrite map_length. replace (length done + Datatypes.S j - length done)%nat with (Datatypes.S j) by lia.
          cbn [map nth_error]. apply map_nth_error, Ej. }
      apply (HS' (length done) j); auto. apply nth_error_Some. congruence. }
    pose proof Hnf as (Nr & Sr & Ir & _ & Hhead). destruct (Hhead t g eq_refl NDV) as (r' & Er).
    assert (Gr : gok r) by (split; [exact Nr|rewrite Er; discriminate]).
    destruct (make_monic_ok K HK HF vo S vs r Gr Sr) as (Gm & Sm & Lm & Mm & Km & c & Hc & Rm). set (r2 := make_monic K dv r) in *.
    assert (REP : forall (P : poly C -> Prop), Forall P (done ++ (t :: g) :: rest) -> P r2 -> Forall P ((done ++ [r2]) ++ rest)).
    { intros P HP Pr. rewrite <- app_assoc. cbn [app]. apply Forall_app in HP. destruct HP as [P1 P2]. apply Forall_app. split; [exact P1|].
      constructor; [exact Pr|exact (Forall_inv_tail P2)]. }
    destruct (IH (done ++ [r2])) as (G & n2 & E2 & F).
    + apply REP; assumption.
    + apply REP; assumption.
    + apply REP; assumption.
    + intros x Hx. rewrite <- app_assoc in Hx. apply in_app_or in Hx. destruct Hx as [Hx|[<-|Hx]]; [apply HI, in_or_app; left; exact Hx| |apply HI, in_or_app; right; right; exact Hx].
      apply (ideal_eq K gs (rmul (rconst c) (R r))); [intros m; symmetry; apply Rm|]. apply ideal_mul.
      apply (nf_ideal_r vs gs (done ++ rest) (t :: g) r); [intros x Hx; apply HI, Hsub, Hx|exact (proj1 Gg)|exact Hnf|apply HI, in_elt].
    + rewrite <- app_assoc. cbn [app]. rewrite map_app. cbn [map]. rewrite <- EM, map_app. cbn [map lm]. rewrite Lm, Er. reflexivity.
    + exact HS'.
    + rewrite <- app_assoc. cbn [app]. rewrite app_length. cbn [length]. intros i j x b u Hi Hij Ex Eb Hu.
      destruct (Nat.eq_dec i (length done)) as [->|Hn].
      * rewrite nth_error_app2, Nat.sub_diag in Ex by lia. injection Ex as <-.
        assert (Hb : exists y, In y (done ++ rest) /\ lm y = b).
        { rewrite <- EM in Eb. rewrite map_app in Eb. cbn [map] in Eb.
          apply nth_error_skip in Eb; [|rewrite map_length; lia]. rewrite <- map_app in Eb. apply in_map_iff in Eb. destruct Eb as (y & <- & Hy). exists y. auto. }
        destruct Hb as (y & Hy & <-).
        assert (Hu' : In (fst u) (map fst r)) by (rewrite <- Km; apply in_map, Hu). apply in_map_iff in Hu'. destruct Hu' as (w & Ew & Hw).
        unfold irred in Ir. rewrite Forall_forall in Ir. rewrite <- Ew. apply (Ir w Hw y Hy).
      * apply (HR i j x b u); try assumption; [lia|]. rewrite nth_error_app1 in * by lia. exact Ex.
    + exists G, (Nat.max n1 n2). split; [|exact F]. intros n Hn. cbn [reduce_all]. rewrite En by lia. cbn [obind]. apply E2. lia.
Qed.

Definition RGB vs gs G : Prop := GB vs gs G /\ redm (map lm G) G (length G).
Lemma interreduce_ok vs gs G : GB vs gs G -> exists G' n0, (forall n, (n0 <= n)%nat -> interreduce K dv S n G = Ok G') /\ RGB vs gs G'.
Proof.
  intros (HG & MG & SG & HI & HL). unfold interreduce. set (G2 := drop_redundant S [] G).
  destruct (drop_spec G [] (Forall_nil _) HG) as [A B]. fold G2 in A, B.
  assert (SUB : forall g, In g G2 -> In g G) by (intros g Hg; destruct (A g Hg) as [[]|X]; exact X).
  rewrite Forall_forall in HG, MG, SG.
  assert (HG' : Forall gok G) by (apply Forall_forall; exact HG).
  assert (S0 : sepm (map lm ([] ++ G)) (length (@nil (poly C)))) by (intros i j a b Hi; cbn in Hi; lia).
  pose proof (drop_sep G [] (Forall_nil _) HG' S0) as SP. fold G2 in SP.
  destruct (reduce_ok vs gs (map lm G2) G2 []) as (G' & n0 & E & F1 & F2 & F3 & F4 & F5 & F6); cbn [app length].
  - apply Forall_forall. auto.
  - apply Forall_forall. auto.
  - apply Forall_forall. auto.
  - auto.
  - reflexivity.
  - rewrite map_length. exact SP.
  - intros i j g b t Hi. lia.
  - exists G', n0. split; [exact E|]. split; [|rewrite F5; exact F6]. split; [exact F1|]. split; [exact F2|]. split; [exact F3|]. split; [exact F4|].
    intros t f N If. destruct (HL t f N If) as (g & Hg & Dg). destruct (B g (or_intror Hg)) as (g2 & Hg2 & D2).
    assert (Hm : In (lm g2) (map lm G')) by (rewrite F5; apply in_map, Hg2). apply in_map_iff in Hm. destruct Hm as (g3 & E3 & Hg3).
    exists g3. split; [exact Hg3|]. rewrite E3. intros v. specialize (D2 v). specialize (Dg v). lia.
Qed.

Theorem buchberger_ok vs F : Forall norm F -> Forall (sup vs) F ->
  exists G n0, (forall n, (n0 <= n)%nat -> buchberger K dv vo S psrt n F = Ok G) /\ RGB vs (map (fun f => R f) F) G.
Proof.
  intros NF SF. set (gs := map (fun f => R f) F). unfold buchberger.
  set (F0 := filter (fun f : poly C => match f with [] => false | _ => true end) F). set (G0 := map (make_monic K dv) F0).
  enough (X : exists G n0, (forall n, (n0 <= n)%nat -> match G0 with [] => Ok [] | [g] => interreduce K dv S n [g]
    | g :: r => let '(G, sv, pairs) := init_loop vo S psrt [g] [p_totdeg g] [] r in G' <- bb_loop K dv vo S psrt n G sv pairs ;; interreduce K dv S n G' end = Ok G)
    /\ RGB vs gs G) by exact X.
  assert (HF0 : forall f, In f F0 -> gok f /\ sup vs f /\ In f F).
  { intros f Hf. apply filter_In in Hf. destruct Hf as [Hf Hne]. rewrite Forall_forall in NF, SF. split; [split; [apply NF, Hf|]|auto].
    destruct f; [discriminate|discriminate]. }
  assert (HG0 : forall g, In g G0 -> gok g /\ monic g /\ sup vs g /\ ideal K gs (R g)).
  { intros g Hg. apply in_map_iff in Hg. destruct Hg as (f & <- & Hf). destruct (HF0 f Hf) as (Gf & Sf & If).
    destruct (make_monic_ok K HK HF vo S vs f Gf Sf) as (A1 & A2 & A3 & A4 & _ & c & Hc & Rc). repeat (split; [assumption|]).
    apply (ideal_eq K gs (rmul (rconst c) (R f))); [intros m; symmetry; apply Rc|]. apply ideal_mul, ideal_gen. unfold gs. apply in_map_iff. exists f. auto. }
  assert (BACK : forall G, incl G0 G -> forall x, In x gs -> ideal K (map (fun g => R g) G) x).
  { intros G Hi x Hx. apply in_map_iff in Hx. destruct Hx as (f & <- & Hf). destruct f as [|t f]; [apply ideal_0|].
    assert (Hf0 : In (t :: f) F0) by (apply filter_In; auto). destruct (HF0 _ Hf0) as (Gf & Sf & _).
    destruct (make_monic_ok K HK HF vo S vs _ Gf Sf) as (A1 & A2 & A3 & A4 & _ & c & Hc & Rc).
    apply (ideal_eq K _ (rmul (rconst (dv 1c c)) (R (make_monic K dv (t :: f))))).
    - intros m. symmetry. apply (graw_inv c (t :: f) _ Hc Rc).
    - apply ideal_mul, ideal_gen. apply in_map_iff. eexists. split; [reflexivity|]. apply Hi. unfold G0. apply in_map_iff. exists (t :: f). auto. }
  assert (HGf : Forall gok G0) by (apply Forall_forall; intros g Hg; apply (HG0 g Hg)).
  assert (MGf : Forall monic G0) by (apply Forall_forall; intros g Hg; apply (HG0 g Hg)).
  assert (SGf : Forall (sup vs) G0) by (apply Forall_forall; intros g Hg; apply (HG0 g Hg)).
  assert (IGf : forall g, In g G0 -> ideal K gs (R g)) by (intros g Hg; apply (HG0 g Hg)).
  destruct G0 as [|g [|g2 r]].
  - exists [], O. split; [reflexivity|]. split; [|intros i j ? ? ? Hi; cbn in Hi; lia].
    apply crit_GB; try (constructor; fail); [intros a b L []|intros g []|]. intros x Hx. apply (BACK []); [apply incl_refl|exact Hx].
  - apply interreduce_ok. apply crit_GB; try assumption.
    + intros a b L [<-|[]] [<-|[]] _ _ _. apply (W_eq K vo S) with r0; [rewrite (D_self K HK S); reflexivity|apply W_0].
    + apply BACK. apply incl_refl.
  - pose proof (init_ok vs gs (g2 :: r) (Forall_inv_tail HGf) (Forall_inv_tail MGf) (Forall_inv_tail SGf) (fun x Hx => IGf x (or_intror Hx)) [g] [p_totdeg g] []) as INIT.
    assert (St0 : BBst vs gs [g] []).
    { split; [constructor; [exact (Forall_inv HGf)|constructor]|]. split; [constructor; [exact (Forall_inv MGf)|constructor]|].
      split; [constructor; [exact (Forall_inv SGf)|constructor]|]. split; [constructor|]. split; [|intros x [<-|[]]; apply IGf; left; reflexivity].
      intros a b L [<-|[]] [<-|[]] _ _ _. apply (W_eq K vo S) with r0; [rewrite (D_self K HK S); reflexivity|apply W_0]. }
    specialize (INIT St0). destruct (init_loop vo S psrt [g] [p_totdeg g] [] (g2 :: r)) as [[G1 sv1] pairs1]. destruct INIT as (EG1 & St1).
    assert (AF : af (dvs vs)) by apply (dickson (fun m v => exp (sm m) v) vs).
    destruct (bb_loop_ok vs gs _ (bad_acc (dvs vs) AF (rev (map lm G1))) (length pairs1) G1 sv1 pairs1 eq_refl (le_n _) St1) as (G2 & n1 & E1 & Inc & St2).
    destruct St2 as (A1 & A2 & A3 & _ & A5 & A6).
    destruct (interreduce_ok vs gs G2) as (G3 & n2 & E2 & HR).
    + apply crit_GB; try assumption. apply BACK. rewrite EG1 in Inc. exact Inc.
    + exists G3, (Nat.max n1 n2). split; [|exact HR]. intros n Hn. cbn [obind]. rewrite E1 by lia. cbn [obind]. apply E2. lia.
Qed.
End BL.
