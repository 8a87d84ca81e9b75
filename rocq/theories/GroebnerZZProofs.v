(** * groebner_basis over ZZ and Ideal: proofs. *)
From Coq Require Import Ring Sorting.Sorted Permutation Setoid Morphisms QArith.
From Verif Require Import Prelude Coef Spec SpecProofs SpecOps SpecOpsProofs OrderSpec PairVec PairVecProofs Mono MonoProofs
  MonoStruct MonoStructProofs Heap HeapProofs HeapMulProofs Poly PolyMulProofs PolyOps MonoOpsProofs PolyOpsGen PolyOpsProofs ConvertProofs
  QQ NumSpec QQProofs ZZProofs ConvertQQ Groebner MonoGcdProofs AF GroebnerProofs BuchProofs BuchLoop GroebnerFinal GroebnerZZ GroebnerSpec.
Local Open Scope Z_scope.

(** ** normal_form with an arbitrary division: partial correctness *)
Section NFZ.
Context {C : Type} (K : coefs C) (HK : ring_ok K) (HD : domain_ok K) (dv : C -> C -> C).
Context (vo : vorder) (Hv : vorder_ok vo) (S : monos mono) (HS : S = lexS vo \/ S = grlexS vo).
Add Ring Kring5 : (ring_laws K HK).
Add Ring Rring5 : (rring K HK) (setoid (req_equiv K) (rring_ext K HK)).
Notation ok := (mok vo).
Notation gt := (m_gt S).
Notation norm := (normal ok gt K).
Notation R := (graw sm).
Notation req := (req K).
Notation rmul := (rmul K).
Notation "0c" := (c0 K).
Notation mul := (m_mul S).
Notation dvd a b := (mdivides (sm a) (sm b)).
Notation HM := (HM vo Hv S HS).
Notation gok := (gok K vo S).
Notation pmax := (pmax S).
Notation ideals G := (ideal K (map (fun g => R g) G)).

(** A zero quotient is never left: the leading term is the same for ever. *)
Lemma nf_stuck G sv t i q u g : find_red S (fst t) 0 G = Ok (Some (i, q, u :: g)) -> mul (fst u) q = fst t -> ok (fst t) ->
  snd t <> 0c -> dv (snd t) (snd u) = 0c -> forall n h r s, nf_loop K dv S n G sv (t :: h) r s = OutOfFuel.
Proof.
  intros E Em Ot Ct Ec. induction n as [|n IH]; intros h r s; [reflexivity|]. cbn [nf_loop]. rewrite E. cbn [obind lc lm]. rewrite Ec.
  unfold mul_term. cbn [map fst snd]. unfold p_sub. cbn [pv_sub fst snd]. rewrite Em.
  rewrite (gt_irrefl _ _ (ms_order S ok sm HM) _ Ot). replace (m_eq S (fst t) (fst t)) with true by (symmetry; apply (ms_eq S ok sm HM); reflexivity).
  replace (csub K (snd t) (cmul K (snd u) 0c)) with (snd t) by ring.
  unfold is0. destruct (ceqb_spec K HK (snd t) 0c) as [X|_]; [contradiction|]. destruct t as [m c]. cbn [fst snd]. apply IH.
Qed.

Lemma nf_partial G sv : Forall gok G -> forall n h r s x s', norm h -> nf_loop K dv S n G sv h r s = Ok (x, s') ->
  exists r', x = r ++ r' /\ norm r' /\ irred G r' /\ ideals G (rsub K (R h) (R r')) /\ (forall L, ok L -> pmax L h -> pmax L r').
Proof.
  intros HG. induction n as [|n IH]; intros h r s x s' Nh E; [discriminate|]. pose proof E as E0. cbn [nf_loop] in E. destruct h as [|t h].
  - injection E as <- _. exists []. split; [symmetry; apply app_nil_r|]. split; [exact Nh|]. split; [constructor|]. split; [|intros; constructor].
    apply (ideal_eq K _ r0); [change (R (@nil (mono * C))) with (@r0 C); ring|apply ideal_0].
  - assert (Nt := Nh). apply (normal_cons ok gt K) in Nt. destruct Nt as (Ot & Ct & Mt & Nh').
    destruct (find_red_ok K vo Hv S HS G (fst t) 0 HG Ot) as (y & Ey & Hy). rewrite Ey in E. cbn [obind] in E. destruct y as [[[i q] g]|].
    + destruct Hy as (Hg & Dg & Oq & Eq). pose proof HG as HG'. rewrite Forall_forall in HG'. pose proof (HG' g Hg) as Gg.
      destruct g as [|u g]; [destruct (proj2 Gg eq_refl)|]. cbn [lm lc] in *.
      destruct (gok_cons K vo S u g Gg) as (Ou & Cu & Mu & Ng). set (c := dv (snd t) (snd u)) in *.
      assert (Hc : c <> 0c).
      { intros Ec. rewrite (nf_stuck G sv t i q u g Ey) in E0; [discriminate|rewrite (ms_mul_comm S ok sm HM) by assumption; exact Eq|assumption..]. }
      set (p2 := mul_term S q (fun d => cmul K d c) (u :: g)) in *.
      assert (N2 : norm p2).
      { unfold p2. rewrite (mul_term_alt K HK vo Hv S HS q c (fun d => cmul K d c) (u :: g) (proj1 (proj1 Gg)) Oq (fun d => eq_refl)).
        apply (norm_scale_mono S ok sm K HM HD (q, c)); [first [exact (proj1 Gg)|assumption]..]. }
      destruct (IH (p_sub S K (t :: h) p2) r _ x s' (p_sub_normal S ok sm K HM HK _ _ Nh N2) E) as (r' & Ex & Nr & Ir & Id & PM).
      exists r'. split; [exact Ex|]. split; [exact Nr|]. split; [exact Ir|]. split.
      * apply (ideal_eq K _ (radd (rmul (rconst c) (T K q (u :: g))) (rsub K (R (p_sub S K (t :: h) p2)) (R r')))).
        -- rewrite (p_sub_req S ok sm K HM HK). unfold p2. rewrite (mul_term_req K HK vo Hv S HS q c (fun d => cmul K d c) (u :: g)); [ring|exact (proj1 (proj1 Gg))|assumption|reflexivity].
        -- apply ideal_add; [|exact Id]. apply ideal_mul. unfold T. apply ideal_mul, ideal_gen, in_map_iff. exists (u :: g). auto.
      * intros L HL ML. apply PM; [exact HL|]. apply (p_sub_keys K HK S (fun m' => gt L m' = true)); [exact ML|].
        assert (ML' := Forall_inv ML). cbn beta in ML'. unfold p2, mul_term. rewrite Forall_map. cbn [fst].
        destruct Gg as ((Og & _) & _). unfold GroebnerProofs.pmax, all_ok in Mu, Og. constructor.
        -- rewrite (ms_mul_comm S ok sm HM), Eq by assumption. exact ML'.
        -- apply Forall_inv_tail in Og. rewrite Forall_forall in *. intros w Hw. apply (gt_trans _ _ (ms_order S ok sm HM) L (fst t) _); try assumption.
           ++ apply (ms_mul_ok S ok sm HM); [apply Og, Hw|assumption].
           ++ rewrite <- Eq, (ms_mul_comm S ok sm HM (fst w) q) by (try assumption; apply Og, Hw).
              apply (ms_gt_mul_l S ok sm HM); try assumption; [apply Og, Hw|apply Mu, Hw].
    + destruct (IH h (r ++ [t]) s x s' Nh' E) as (r' & Ex & Nr & Ir & Id & PM). exists (t :: r'). split; [rewrite Ex, <- app_assoc; reflexivity|].
      split; [apply (norm_cons K vo S); try assumption; apply PM; assumption|]. split; [constructor; [exact Hy|exact Ir]|]. split.
      * apply (ideal_eq K _ (rsub K (R h) (R r'))); [rewrite (graw_cons K HK t h), (graw_cons K HK t r'); ring|exact Id].
      * intros L HL ML. constructor; [exact (Forall_inv ML)|apply PM; [exact HL|exact (Forall_inv_tail ML)]].
Qed.
Lemma nf_partial_top G n f r : Forall gok G -> norm f -> normal_form K dv S n f G = Ok r ->
  norm r /\ irred G r /\ ideals G (rsub K (R f) (R r)).
Proof.
  intros HG Nf E. unfold normal_form, nf_sugar in E. destruct f as [|t f].
  - cbn in E. injection E as <-. split; [exact Nf|]. split; [constructor|]. apply (ideal_eq K _ r0); [change (R (@nil (mono * C))) with (@r0 C); ring|apply ideal_0].
  - destruct G as [|g G].
    + cbn in E. injection E as <-. split; [exact Nf|]. split; [apply Forall_forall; intros ? _ ? []|]. apply (ideal_eq K _ r0); [ring|apply ideal_0].
    + destruct (nf_loop K dv S n (g :: G) [] (t :: f) [] 0) as [[x s]| | |] eqn:EL; try discriminate. cbn in E. injection E as <-.
      destruct (nf_partial (g :: G) [] HG n (t :: f) [] 0 x s Nf EL) as (r' & -> & A & B & D & _). cbn [app]. auto.
Qed.
End NFZ.

(** ** conversions *)
Lemma qint_add a b : qqc_int (a + b) = qqc_add (qqc_int a) (qqc_int b).
Proof. apply qcval_inj. rewrite qcval_add, !qcval_int, inject_Z_plus. reflexivity. Qed.
Lemma qint_mul a b : qqc_int (a * b) = qqc_mul (qqc_int a) (qqc_int b).
Proof. apply qcval_inj. rewrite qcval_mul, !qcval_int, inject_Z_mult. reflexivity. Qed.
Lemma qint_inj a b : qqc_int a = qqc_int b -> a = b.
Proof. intros E. assert (X : (qcval (qqc_int a) == qcval (qqc_int b))%Q) by (rewrite E; reflexivity). rewrite !qcval_int in X. unfold Qeq in X. cbn in X. lia. Qed.
Lemma coef_qpoly p s : coef QQc (qpoly p) s = qqc_int (coef Zc p s).
Proof.
  induction p as [|[m c] p IH]; [reflexivity|]. cbn [qpoly map coef fst snd]. fold (qpoly p). destruct (meqb m s); [|exact IH].
  rewrite IH. symmetry. apply qint_add.
Qed.
Lemma qpoly_app p q : qpoly (p ++ q) = qpoly p ++ qpoly q.
Proof. apply map_app. Qed.
Lemma req_qpoly p q : req Zc p q <-> req QQc (qpoly p) (qpoly q).
Proof.
  split; intros H s.
  - rewrite !coef_qpoly, (H s). reflexivity.
  - specialize (H s). rewrite !coef_qpoly in H. apply qint_inj, H.
Qed.
Lemma rmul_qpoly p q : qpoly (rmul Zc p q) = rmul QQc (qpoly p) (qpoly q).
Proof.
  unfold rmul. induction p as [|t p IH]; [reflexivity|]. cbn [flat_map qpoly map]. fold (qpoly p). change (map (fun t => (fst t, qqc_int (snd t)))) with qpoly. rewrite qpoly_app, IH. f_equal.
  unfold qpoly. rewrite !map_map. apply map_ext. intros u. cbn [fst snd]. f_equal. apply qint_mul.
Qed.
Lemma ropp_qpoly p : qpoly (ropp Zc p) = ropp QQc (qpoly p).
Proof.
  unfold ropp, qpoly. rewrite !map_map. apply map_ext. intros u. cbn [fst snd]. f_equal. apply qcval_inj. cbn [copp QQc Zc]. rewrite qcval_neg, !qcval_int, inject_Z_opp. reflexivity.
Qed.
Lemma rsub_qpoly p q : qpoly (rsub Zc p q) = rsub QQc (qpoly p) (qpoly q).
Proof. unfold rsub, radd. rewrite qpoly_app, ropp_qpoly. reflexivity. Qed.
Lemma ideal_qpoly gs p : ideal Zc gs p -> ideal QQc (map qpoly gs) (qpoly p).
Proof.
  induction 1 as [g Hg| |p q _ IH1 _ IH2|a p _ IH|p q E _ IH].
  - apply ideal_gen, in_map, Hg.
  - apply ideal_0.
  - unfold radd. rewrite qpoly_app. apply ideal_add; assumption.
  - rewrite rmul_qpoly. apply ideal_mul, IH.
  - apply (ideal_eq QQc _ (qpoly p)); [apply req_qpoly, E|exact IH].
Qed.

(** ** the content loop *)
Lemma content_loop_spec p : forall c, 0 <= c -> let d := content_loop c p in
  0 <= d /\ (d | c) /\ (forall t, In t p -> (d | snd t)) /\ (forall e, (e | c) -> (forall t, In t p -> (e | snd t)) -> (e | d)).
Proof.
  induction p as [|t p IH]; intros c Hc; cbn [content_loop].
  - split; [exact Hc|]. split; [apply Z.divide_refl|]. split; [intros t []|auto].
  - set (g := Z.gcd c (Z.abs (snd t))). assert (Hg : 0 <= g) by apply Z.gcd_nonneg.
    assert (G1 : (g | c)) by apply Z.gcd_divide_l. assert (G2 : (g | snd t)) by (apply Z.divide_abs_r, Z.gcd_divide_r).
    destruct (g =? 1) eqn:E.
    + apply Z.eqb_eq in E. split; [exact Hg|]. split; [exact G1|]. split; [intros u _; rewrite E; apply Z.divide_1_l|].
      intros e He Hu. apply Z.gcd_greatest; [exact He|]. apply Z.divide_abs_r. apply Hu. left. reflexivity.
    + destruct (IH g Hg) as (A & B & D & F). split; [exact A|]. split; [apply Z.divide_trans with g; assumption|]. split.
      * intros u [<-|Hu]; [apply Z.divide_trans with g; assumption|apply D, Hu].
      * intros e He Hu. apply F; [|intros u H; apply Hu; right; exact H]. apply Z.gcd_greatest; [exact He|]. apply Z.divide_abs_r. apply Hu. left. reflexivity.
Qed.
Lemma make_primitive_spec (p : poly Z) : p <> [] -> Forall (fun t => snd t <> 0) p ->
  exists q c, make_primitive p = Ok q /\ c <> 0 /\ map fst q = map fst p /\ Forall (fun t => snd t <> 0) q /\ primitive_pos q /\
    (forall s, coef Zc (graw sm p) s = c * coef Zc (graw sm q) s).
Proof.
  intros Hn Hz. destruct p as [|t p]; [congruence|]. unfold make_primitive. set (P := t :: p) in *.
  pose proof (content_loop_spec P (Z.abs (snd t)) (Z.abs_nonneg _)) as X. cbn zeta in X. set (d := content_loop (Z.abs (snd t)) P) in *.
  destruct X as (A & B & D & F). pose proof (Forall_inv Hz) as Ht. cbn beta in Ht.
  assert (Hd : 0 < d) by (destruct B as [k Ek]; assert (d <> 0); [intros X; rewrite X in Ek; lia|lia]).
  set (c := if snd t <? 0 then - d else d). assert (Hc : c <> 0) by (unfold c; destruct (snd t <? 0); lia).
  assert (DC : forall u, In u P -> snd u = c * (snd u ÷ c)).
  { intros u Hu. destruct (D u Hu) as [k Ek]. assert (exists k', snd u = k' * c) as [k' Ek'].
    { unfold c. destruct (snd t <? 0); [exists (- k)|exists k]; lia. }
    rewrite Ek' at 2. rewrite Z.quot_mul by exact Hc. lia. }
  exists (map (fun u => (fst u, snd u ÷ c)) P), c. split; [reflexivity|]. split; [exact Hc|]. split; [rewrite map_map; reflexivity|].
  assert (NZ : forall u, In u P -> snd u ÷ c <> 0).
  { intros u Hu X. rewrite Forall_forall in Hz. apply (Hz u Hu). rewrite (DC u Hu), X. lia. }
  split; [rewrite Forall_map; apply Forall_forall; exact NZ|]. split; [split|].
  - unfold P. cbn [map]. exists (fst t), (snd t ÷ c), (map (fun u => (fst u, snd u ÷ c)) p). split; [reflexivity|].
    pose proof (DC t (or_introl eq_refl)) as E. set (k := snd t ÷ c) in *. revert E. unfold c. destruct (snd t <? 0) eqn:EL; intros E; nia.
  - intros e He. assert (X : (c * e | d)).
    { apply F.
      - apply Z.divide_abs_r. rewrite (DC t (or_introl eq_refl)). apply Z.mul_divide_mono_l. apply (He (fst t, snd t ÷ c)). left. reflexivity.
      - intros u Hu. rewrite (DC u Hu). apply Z.mul_divide_mono_l. apply (He (fst u, snd u ÷ c)). apply in_map_iff. exists u. auto. }
    destruct X as [k Ek]. assert (Ec : c = d \/ c = - d) by (unfold c; destruct (snd t <? 0); auto).
    destruct Ec as [Ec|Ec]; rewrite Ec in Ek; [exists k|exists (- k)]; nia.
  - intros s. clearbody c. clear - DC. induction P as [|u P IH]; [cbn; lia|]. cbn [graw map coef fst snd]. change (map (fun t => (sm (fst t), snd t))) with (@graw mono Z sm).
    destruct (meqb (sm (fst u)) s).
    + cbn [cadd Zc]. rewrite IH by (intros w Hw; apply DC; right; exact Hw). pose proof (DC u (or_introl eq_refl)) as E. lia.
    + apply IH. intros w Hw. apply DC. right. exact Hw.
Qed.

Lemma coef_rconst_mul {C} (K : coefs C) (HK : ring_ok K) c p s : coef K (rmul K (rconst c) p) s = cmul K c (coef K p s).
Proof.
  rewrite <- (rscale_mul K HK c p s). apply (coef_scale K HK).
Qed.
(** ** the ZZ entry point *)
Section GBZ.
Context (vo : vorder) (Hv : vorder_ok vo) (S : monos mono) (HS : S = lexS vo \/ S = grlexS vo).
Context (psrt : list cpair -> list cpair) (Hps : forall l, Permutation l (psrt l)).
Context (msrt : list (var * Z) -> list (var * Z)) (Hms : sort_ok (fun _ : var => True) vo msrt).
Context (srtq : poly qqc -> poly qqc) (Hsq : sort_ok (mok vo) (m_gt S) srtq).
Context (srtz : poly Z -> poly Z) (Hsz : sort_ok (mok vo) (m_gt S) srtz).
Let HQ : ring_ok QQc := domain_ring _ (field_domain _ QQc_field).
Let HZ : ring_ok Zc := domain_ring _ Zc_domain.
Local Existing Instance HQ.
Local Existing Instance HZ.
Add Ring Rring6 : (rring QQc HQ) (setoid (req_equiv QQc) (rring_ext QQc HQ)).
Notation ok := (mok vo).
Notation gt := (m_gt S).
Notation HM := (HM vo Hv S HS).
Notation normZ := (normal ok gt Zc).
Notation normQ := (normal ok gt QQc).
Notation toQ := (p_convert QQc vo gt msrt srtq qqc_int).

Lemma toQ_ok f : normZ f -> normQ (toQ f) /\ req QQc (graw sm (toQ f)) (qpoly (graw sm f)).
Proof.
  intros N. destruct (convert_spec vo vo Hv Hv S S HS HS Zc QQc HZ HQ qqc_int eq_refl msrt Hms srtq Hsq f N) as [A B].
  split; [exact A|]. intros s. rewrite B. symmetry. apply coef_qpoly.
Qed.

(** an integer polynomial [z] that is a non-zero multiple of [g] *)
Definition scaled (z : poly Z) (g : poly qqc) : Prop :=
  normZ z /\ z <> [] /\ exists c, c <> c0 QQc /\ req QQc (qpoly (graw sm z)) (rmul QQc (rconst c) (graw sm g)).

Lemma fromQ_ok g : gok QQc vo S g -> exists z, make_primitive (p_convert_qq vo gt msrt srtz g) = Ok z /\ scaled z g /\ primitive_pos z.
Proof.
  intros [N Hn]. destruct (convert_qq_spec vo vo Hv Hv S S HS HS msrt Hms srtz Hsz g N) as (den & Hden & NP & HP).
  set (P := p_convert_qq vo gt msrt srtz g) in *.
  assert (HP' : req QQc (qpoly (graw sm P)) (rmul QQc (rconst (qqc_int den)) (graw sm g))).
  { intros s. rewrite coef_qpoly, (coef_rconst_mul QQc HQ). apply qcval_inj. cbn [cmul QQc]. rewrite qcval_mul, !qcval_int. apply HP. }
  assert (PN : P <> []).
  { intros X. rewrite X in HP'. apply Hn. apply (graw_nil_req S ok sm QQc HM HQ g N). intros s. specialize (HP' s). rewrite (coef_rconst_mul QQc HQ) in HP'.
    symmetry in HP'. apply (domain_integral _ (field_domain _ QQc_field)) in HP'. destruct HP' as [Y|Y]; [|exact Y]. apply qint_inj in Y. lia. }
  destruct (make_primitive_spec P PN (proj2 (proj2 NP))) as (q & c & E & Hc & Ef & Nz & Pr & Hq). exists q. split; [exact E|]. split; [|exact Pr].
  split.
  - destruct NP as (A & B & _). split; [|split].
    + unfold all_ok in *. rewrite <- (Forall_map fst ok) in *. rewrite Ef. exact A.
    + unfold desc in *. rewrite Ef. exact B.
    + exact Nz.
  - split; [intros X; subst q; destruct P; [congruence|discriminate]|].
    exists (cquo QQc (qqc_int den) (qqc_int c)). assert (Hc' : qqc_int c <> c0 QQc) by (intros X; apply qint_inj in X; contradiction).
    split.
    + intros X. pose proof (field_quo _ QQc_field (qqc_int den) (qqc_int c) Hc') as Y. rewrite X in Y.
      assert (qqc_int den = c0 QQc) by (rewrite <- Y; cbn; apply qcval_inj; rewrite qcval_mul; cbn; unfold Qeq; cbn; lia).
      apply qint_inj in H. lia.
    + intros s. rewrite (coef_rconst_mul QQc HQ), coef_qpoly. specialize (HP' s). rewrite (coef_rconst_mul QQc HQ), coef_qpoly, Hq, qint_mul in HP'.
      set (a := coef QQc (graw sm g) s) in *. set (b := qqc_int (coef Zc (graw sm q) s)) in *.
      assert (X : cmul QQc (cquo QQc (qqc_int den) (qqc_int c)) (qqc_int c) = qqc_int den) by (apply (field_quo _ QQc_field), Hc').
      set (d := cquo QQc (qqc_int den) (qqc_int c)) in *. rewrite <- X in HP'. cbn [cmul QQc] in *.
      assert (Y : (qcval (qqc_int c) * qcval b == qcval (qqc_int c) * (qcval d * qcval a))%Q).
      { rewrite <- qcval_mul, HP', !qcval_mul. ring. }
      apply Qmult_inj_l in Y; [apply qcval_inj; rewrite qcval_mul; exact Y|]. rewrite qcval_int. unfold Qeq. cbn. lia.
Qed.

Lemma mapM_prim G : Forall (gok QQc vo S) G ->
  exists Gz, mapM (fun g => make_primitive (p_convert_qq vo gt msrt srtz g)) G = Ok Gz /\ Forall2 scaled Gz G /\ Forall primitive_pos Gz.
Proof.
  induction 1 as [|g G Hg HG (Gz & E & F2 & P)]; [exists []; repeat split; constructor|].
  destruct (fromQ_ok g Hg) as (z & Ez & Sz & Pz). exists (z :: Gz). cbn [mapM]. rewrite Ez. cbn [obind]. rewrite E. cbn [obind].
  split; [reflexivity|]. split; constructor; assumption.
Qed.
Lemma scaled_lm z g : gok QQc vo S g -> scaled z g -> lm z = lm g.
Proof.
  intros [Ng Hg] (Nz & Hz & c & Hc & E). destruct z as [|t z]; [congruence|]. destruct g as [|u g]; [congruence|]. cbn [lm].
  assert (Ot : ok (fst t)) by (apply normal_cons in Nz; apply Nz). assert (Ou : ok (fst u)) by (apply normal_cons in Ng; apply Ng).
  assert (SU : forall s, coef Zc (graw sm (t :: z)) s <> 0 <-> coef QQc (graw sm (u :: g)) s <> c0 QQc).
  { intros s. specialize (E s). rewrite coef_qpoly, (coef_rconst_mul QQc HQ) in E. split; intros H X; apply H.
    - rewrite X in E. apply qint_inj. rewrite E. apply qcval_inj. cbn [cmul QQc c0]. rewrite qcval_mul, !qcval_int. unfold Qeq. cbn. lia.
    - rewrite X in E. symmetry in E. apply (domain_integral _ (field_domain _ QQc_field)) in E. destruct E; [contradiction|assumption]. }
  assert (A1 : exists w, In w (u :: g) /\ meq (sm (fst w)) (sm (fst t))).
  { apply (norm_supp S ok sm QQc HM HQ (u :: g) _ Ng). apply SU. rewrite (coef_head Zc HZ vo Hv S HS t z Nz). apply normal_cons in Nz. apply Nz. }
  assert (A2 : exists w, In w (t :: z) /\ meq (sm (fst w)) (sm (fst u))).
  { apply (norm_supp S ok sm Zc HM HZ (t :: z) _ Nz). apply SU. rewrite (coef_head QQc HQ vo Hv S HS u g Ng). apply normal_cons in Ng. apply Ng. }
  destruct A1 as (w1 & H1 & E1). destruct A2 as (w2 & H2 & E2).
  assert (O1 : ok (fst w1)) by (destruct Ng as [A _]; unfold all_ok in A; rewrite Forall_forall in A; apply A, H1).
  assert (O2 : ok (fst w2)) by (destruct Nz as [A _]; unfold all_ok in A; rewrite Forall_forall in A; apply A, H2).
  apply (ms_inj S ok sm HM) in E1; try assumption. apply (ms_inj S ok sm HM) in E2; try assumption.
  destruct H1 as [->|H1]; [symmetry; exact E1|]. destruct H2 as [->|H2]; [exact E2|]. exfalso.
  apply normal_cons in Ng. destruct Ng as (_ & _ & Mg & _). apply normal_cons in Nz. destruct Nz as (_ & _ & Mz & _). rewrite Forall_forall in Mg, Mz.
  specialize (Mg w1 H1). specialize (Mz w2 H2). rewrite E1 in Mg. rewrite E2 in Mz. pose proof (ms_order S ok sm HM) as HO.
  pose proof (gt_trans _ _ HO _ _ _ Ot Ou Ot Mz Mg) as X. rewrite (gt_irrefl _ _ HO _ Ot) in X. discriminate.
Qed.
Lemma scaled_ideal Gz G : Forall2 scaled Gz G -> forall p, q_ideal Gz p <-> ideal QQc (map (fun g => graw sm g) G) p.
Proof.
  intros F p. unfold q_ideal. split; apply ideal_incl; intros x Hx; apply in_map_iff in Hx; destruct Hx as (y & <- & Hy).
  - assert (exists g, In g G /\ scaled y g) as (g & Hg & _ & _ & c & Hc & E).
    { clear - F Hy. induction F as [|a b la lb Hab F IH]; [destruct Hy|]. destruct Hy as [->|Hy]; [exists b; split; [left; reflexivity|exact Hab]|].
      destruct (IH Hy) as (g & A & B). exists g. split; [right; exact A|exact B]. }
    apply (ideal_eq QQc _ (rmul QQc (rconst c) (graw sm g))); [intros s; symmetry; apply E|]. apply ideal_mul, ideal_gen, in_map_iff. exists g. auto.
  - assert (exists z, In z Gz /\ scaled z y) as (z & Hz & _ & _ & c & Hc & E).
    { clear - F Hy. induction F as [|a b la lb Hab F IH]; [destruct Hy|]. destruct Hy as [->|Hy]; [exists a; split; [left; reflexivity|exact Hab]|].
      destruct (IH Hy) as (g & A & B). exists g. split; [right; exact A|exact B]. }
    pose proof (graw_inv QQc HQ QQc_field c y _ Hc E) as E'.
    apply (ideal_eq QQc _ (rmul QQc (rconst (cquo QQc (c1 QQc) c)) (qpoly (graw sm z)))); [intros s; symmetry; apply E'|]. apply ideal_mul, ideal_gen, in_map_iff. exists z. auto.
Qed.
Lemma toQ_ideal F : Forall normZ F -> forall p, q_ideal F p <-> ideal QQc (map (fun g => graw sm g) (map toQ F)) p.
Proof.
  intros NF p. rewrite Forall_forall in NF. unfold q_ideal. rewrite map_map. split; apply ideal_incl; intros x Hx; apply in_map_iff in Hx; destruct Hx as (f & <- & Hf).
  - apply (ideal_eq QQc _ (graw sm (toQ f))); [apply toQ_ok, NF, Hf|]. apply ideal_gen, in_map_iff. exists f. auto.
  - apply (ideal_eq QQc _ (qpoly (graw sm f))); [intros s; symmetry; apply toQ_ok, NF, Hf|]. apply ideal_gen, in_map_iff. exists f. auto.
Qed.

Theorem groebner_ZZ_ok F : Forall normZ F -> exists vs G Gz n0,
  (forall n, (n0 <= n)%nat -> groebner_ZZ vo S psrt msrt srtq srtz n F = Ok Gz) /\ RGB QQc vo S vs (map (fun g => graw sm g) (map toQ F)) G /\
  Forall2 scaled Gz G /\ Forall primitive_pos Gz.
Proof.
  intros NF. assert (NQ : Forall normQ (map toQ F)).
  { rewrite Forall_map. eapply Forall_impl; [|exact NF]. intros f Hf. apply toQ_ok, Hf. }
  destruct (sup_all (map toQ F)) as [vs SV].
  destruct (buchberger_ok QQc HQ QQc_field vo Hv S HS psrt Hps vs _ NQ SV) as (G & n0 & E & HR).
  destruct (mapM_prim G) as (Gz & Ez & F2 & P); [apply HR|].
  exists vs, G, Gz, n0. split; [|auto]. intros n Hn. unfold groebner_ZZ, groebner_QQ. rewrite E by exact Hn. cbn [obind]. exact Ez.
Qed.

(** leading monomials and ideal of the result *)
Lemma groebner_ZZ_props vs G Gz F : Forall normZ F -> RGB QQc vo S vs (map (fun g => graw sm g) (map toQ F)) G -> Forall2 scaled Gz G ->
  Forall (gok Zc vo S) Gz /\ (forall p, q_ideal F p <-> q_ideal Gz p) /\
  (forall t f, normZ (t :: f) -> q_ideal F (qpoly (graw sm (t :: f))) -> exists z, In z Gz /\ mdivides (sm (lm z)) (sm (fst t))).
Proof.
  intros NF HR F2. pose proof HR as ((HG & _ & _ & _ & HL) & _).
  assert (NQ : Forall normQ (map toQ F)).
  { rewrite Forall_map. eapply Forall_impl; [|exact NF]. intros f Hf. apply toQ_ok, Hf. }
  split; [|split].
  - clear - F2. induction F2 as [|z g la lb (A & B & _) F2 IH]; constructor; [split; assumption|exact IH].
  - intros p. rewrite (toQ_ideal F NF), (scaled_ideal Gz G F2). apply (gb_ideal QQc HQ QQc_field vo Hv S HS vs (map toQ F) G NQ (proj1 HR)).
  - intros t f Nf If. destruct (toQ_ok (t :: f) Nf) as [Nq Eq]. assert (SC : scaled (t :: f) (toQ (t :: f))).
    { split; [exact Nf|]. split; [discriminate|]. exists (c1 QQc). split; [apply (domain_nontrivial _ (field_domain _ QQc_field))|].
      rewrite (rconst_1 QQc HQ). symmetry. exact Eq. }
    assert (GQ : gok QQc vo S (toQ (t :: f))).
    { split; [exact Nq|]. intros X. rewrite X in Eq. specialize (Eq (sm (fst t))). rewrite coef_qpoly, (coef_head Zc HZ vo Hv S HS t f Nf) in Eq.
      cbn in Eq. symmetry in Eq. apply (qint_inj _ 0) in Eq. apply normal_cons in Nf. apply Nf, Eq. }
    pose proof (scaled_lm _ _ GQ SC) as EL. destruct (toQ (t :: f)) as [|u q] eqn:EQ; [destruct (proj2 GQ eq_refl)|]. cbn [lm] in EL.
    destruct (HL u q Nq) as (g & Hg & Dg).
    + apply (toQ_ideal F NF). apply (ideal_eq QQc _ (qpoly (graw sm (t :: f)))); [symmetry; exact Eq|exact If].
    + assert (exists z, In z Gz /\ scaled z g) as (z & Hz & Sz).
      { clear - F2 Hg. induction F2 as [|a b la lb Hab F IH]; [destruct Hg|]. destruct Hg as [->|Hy]; [exists a; split; [left; reflexivity|exact Hab]|].
        destruct (IH Hy) as (z & A & B). exists z. split; [right; exact A|exact B]. }
      exists z. split; [exact Hz|]. rewrite (scaled_lm z g), EL; [exact Dg| |exact Sz]. rewrite Forall_forall in HG. apply HG, Hg.
Qed.
Theorem contains_ZZ_partial F Gz n f r : (Forall (gok Zc vo S) Gz) -> (forall p, q_ideal F p <-> q_ideal Gz p) ->
  (forall t f, normZ (t :: f) -> q_ideal F (qpoly (graw sm (t :: f))) -> exists z, In z Gz /\ mdivides (sm (lm z)) (sm (fst t))) ->
  normZ f -> normal_form Zc Z.quot S n f Gz = Ok r -> (r = [] <-> q_ideal F (qpoly (graw sm f))).
Proof.
  intros HG HI HL Nf E. destruct (nf_partial_top Zc HZ Zc_domain Z.quot vo Hv S HS Gz n f r HG Nf E) as (Nr & Ir & Id).
  apply ideal_qpoly in Id. rewrite map_map in Id. change (q_ideal Gz (qpoly (rsub Zc (graw sm f) (graw sm r)))) in Id. apply HI in Id. rewrite rsub_qpoly in Id.
  split.
  - intros ->. apply (ideal_eq QQc _ (rsub QQc (qpoly (graw sm f)) (qpoly (graw sm [])))); [|exact Id].
    change (qpoly (graw sm (@nil (mono * Z)))) with (@r0 qqc). ring.
  - intros If. destruct r as [|t r]; [reflexivity|exfalso].
    destruct (HL t r Nr) as (z & Hz & Dz).
    + apply (ideal_eq QQc _ (rsub QQc (qpoly (graw sm f)) (rsub QQc (qpoly (graw sm f)) (qpoly (graw sm (t :: r)))))); [ring|].
      apply (ideal_sub QQc HQ); [exact If|exact Id].
    + unfold irred in Ir. rewrite Forall_forall in Ir. exact (Ir t (or_introl eq_refl) z Hz Dz).
Qed.
End GBZ.
