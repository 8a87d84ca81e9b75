(** * Polynomial division: exact quotients, and quotient with remainder over a field. *)
From Coq Require Import Ring Sorting.Sorted Permutation Setoid Morphisms Wellfounded.Inclusion.
From Verif Require Import Prelude Coef Spec SpecProofs OrderSpec PairVec PairVecProofs Heap HeapProofs
  HeapMulProofs MonoStruct MonoStructProofs Poly PolyMulProofs Div DivProofs.

Section PolyDiv.
Context {M C : Type} (S : monos M) (ok : M -> Prop) (sm : M -> smono) (K : coefs C).
Context (HS : monos_ok S ok sm) (HK : ring_ok K).
Add Ring Kring : (ring_laws K HK).
Add Ring Rring : (rring K HK) (setoid (req_equiv K) (rring_ext K HK)).
Notation gt := (m_gt S).
Notation poly := (list (M * C)).
Notation norm := (normal ok gt K).
Notation graw := (graw sm).
Notation req := (req K).
Notation rmul := (rmul K).
Notation "x +c y" := (cadd K x y) (at level 50, left associativity).

Definition pvars (p : poly) : list N := flat_map (fun t => map fst (sm (fst t))) p.
Lemma msup_pvars p t vs : In t p -> incl (pvars p) vs -> msup vs (sm (fst t)).
Proof.
  intros Ht Hi v Hv. apply Hi. unfold pvars. apply in_flat_map. exists t. split; [exact Ht|].
  destruct (in_dec N.eq_dec v (map fst (sm (fst t)))) as [|Hn]; [assumption|].
  apply exp_notin in Hn. contradiction.
Qed.

Lemma order_sub (P Q : M -> Prop) (g : M -> M -> bool) : (forall m, Q m -> P m) -> order_on P g -> order_on Q g.
Proof.
  intros HQ [I T O]. split; intros.
  - apply I; auto.
  - apply (T a b c); auto.
  - apply O; auto.
Qed.

Section Run.
Variable step : M -> C -> option (M * C) * poly.
Variables (F G : poly).
Context (HF : norm F) (HG : norm G).
Variable g : M * C.
Variable gs : poly.
Context (EG : G = g :: gs).
Context (Hst : forall m k u, ok m -> k <> c0 K -> fst (step m k) = Some u ->
   ok (fst u) /\ m_mul S (fst u) (fst g) = m /\ snd u <> c0 K).

Let vs := pvars F ++ pvars G.
Definition okv (m : M) : Prop := ok m /\ msup vs (sm m).

Lemma okF : all_ok okv F.
Proof.
  apply Forall_forall. intros t Ht. split.
  - destruct HF as (Hok & _). unfold all_ok in Hok. rewrite Forall_forall in Hok. apply Hok, Ht.
  - apply (msup_pvars F); [exact Ht|]. intros x Hx. apply in_or_app. auto.
Qed.
Lemma okG : all_ok okv G.
Proof.
  apply Forall_forall. intros t Ht. split.
  - destruct HG as (Hok & _). unfold all_ok in Hok. rewrite Forall_forall in Hok. apply Hok, Ht.
  - apply (msup_pvars G); [exact Ht|]. intros x Hx. apply in_or_app. auto.
Qed.

Notation fin := (@dfin M C okv okv gt (m_mul S) K step G g).

Theorem heap_div_run :
  exists tr fuel0, fin F tr /\
    forall fuel, fuel0 <= fuel ->
      heap_div gt (m_eq S) (m_mul S) K step G fuel F = Ok (tq step tr, trem step tr).
Proof.
  pose proof okG as OG. unfold all_ok in OG. rewrite Forall_forall in OG.
  assert (OGn : forall t, t < length G -> okv (fst (nth t G g))) by (intros t Ht; apply OG, nth_In, Ht).
  assert (HO : order_on okv gt) by (apply (order_sub ok); [intros m Hm; apply Hm|apply (ms_order S ok sm HS)]).
  apply (heap_div_ok okv okv gt (m_eq S) (m_mul S) K HO HO (ms_eq S ok sm HS) HK).
  - rewrite EG. simpl. lia.
  - intros q t [Hq1 Hq2] Ht. destruct (OGn t Ht) as [G1 G2]. split; [apply (ms_mul_ok S ok sm HS); assumption|].
    intros v Hv. unfold Pm in Hv. rewrite (exp_ms_mul S ok sm HS) in Hv by assumption.
    destruct (N.eq_dec (exp (sm q) v) 0) as [E|E]; [apply G2; lia|apply Hq2, E].
  - intros q t t' [Hq1 _] Ht Ht'. destruct (OGn t ltac:(lia)) as [G1 _]. destruct (OGn t' Ht') as [G1' _].
    apply (ms_gt_mul_l S ok sm HS); auto. apply desc_nth; [apply HG|exact Ht|exact Ht'].
  - intros q q' t [Hq _] [Hq' _] Hgt Ht. destruct (OGn t Ht) as [G1 _]. apply (ms_gt_mul S ok sm HS); auto.
  - intros m k u [Hm1 Hm2] Hk Hs. destruct (Hst m k u Hm1 Hk Hs) as (H1 & H2 & _).
    assert (E : Pm (m_mul S) G g (fst u) 0 = m_mul S (fst u) (fst g)) by (unfold Pm; rewrite EG; reflexivity).
    split; [split; [exact H1|]|rewrite E; exact H2].
    intros v Hv. apply Hm2. rewrite <- H2.
    assert (okv (fst g)) as [Hg _] by (apply OG; rewrite EG; left; reflexivity).
    rewrite (exp_ms_mul S ok sm HS) by assumption. lia.
  - apply (wf_incl _ _ (fun a b => ok a /\ ok b /\ msup vs (sm a) /\ msup vs (sm b) /\ gt b a = true)); [|apply (ms_wf S ok sm HS)].
    intros a b ([A1 A2] & [B1 B2] & Hg). auto.
  - exact okF.
  - apply HF.
Qed.

Lemma all_okv (p : poly) : all_ok okv p -> all_ok ok p.
Proof. intros H. eapply Forall_impl; [|exact H]. intros t Ht. apply Ht. Qed.

Lemma tq_norm tr : fin F tr -> norm (tq step tr).
Proof.
  intros (H1 & H2 & H3 & H4 & H5 & _). split; [apply all_okv, H4|]. split; [exact H5|].
  apply Forall_forall. intros u Hu. unfold tq in Hu. apply in_flat_map in Hu as (t & Ht & Hu).
  destruct (fst (step (fst t) (snd t))) as [u'|] eqn:E; [|destruct Hu]. destruct Hu as [<-|[]].
  apply all_okv in H1. unfold all_ok in H1. unfold nonzero in H3. rewrite Forall_forall in H1, H3.
  apply (Hst (fst t) (snd t)); auto.
Qed.

Lemma fin_req tr : fin F tr ->
  req (graw F) (radd (rmul (graw (tq step tr)) (graw G)) (graw (map (resid K step G g) tr))).
Proof.
  intros (H1 & H2 & H3 & H4 & H5 & Hs). apply all_okv in H4.
  rewrite <- (products_req S ok sm K HS HK (tq step tr) G H4 (proj1 HG)).
  unfold radd. rewrite <- graw_app. apply (csum_graw sm K). intros phi.
  rewrite Hs, (csum_app K HK). unfold prods, products. ring.
Qed.
End Run.

(** ** The step functions *)
Lemma step_q_ok g (Hg : ok (fst g)) m k u : ok m -> fst (step_q (m_div S) K g m k) = Some u ->
  ok (fst u) /\ m_mul S (fst u) (fst g) = m /\ snd u <> c0 K.
Proof.
  intros Hm. unfold step_q. destruct (ms_div S ok sm HS m (fst g) Hm Hg) as [_ D].
  destruct (m_div S m (fst g)) as [[] m1]; [|discriminate]. cbn [fst].
  destruct (is0_spec K HK (cquo K k (snd g))) as [E|E]; [discriminate|]. intros [= <-]. cbn.
  destruct (D eq_refl). auto.
Qed.
Lemma step_qr_fst g m k : fst (step_qr (m_div S) K g m k) = fst (step_q (m_div S) K g m k).
Proof. unfold step_q, step_qr. destruct (m_div S m (fst g)) as [[] m1]; reflexivity. Qed.

(** ** Exact division *)
Lemma lead_coef_prod (D G : poly) d0 g : norm (d0 :: D) -> norm (g :: G) ->
  csum K (m_eq S (m_mul S (fst d0) (fst g))) (products (m_mul S) K (d0 :: D) (g :: G)) = cmul K (snd d0) (snd g).
Proof.
  intros (OD & DD & _) (OG & DG & _).
  apply Forall_cons_iff in OD as [Od OD]. apply Forall_cons_iff in OG as [Og OG].
  apply (desc_cons gt) in DD as [_ DD]. apply (desc_cons gt) in DG as [_ DG].
  set (m := m_mul S (fst d0) (fst g)).
  pose proof (ms_mul_ok S ok sm HS) as MO. pose proof (ms_order S ok sm HS) as HO.
  assert (Om : ok m) by (apply MO; assumption).
  assert (Ne : forall x, ok x -> gt m x = true -> m_eq S m x = false).
  { intros x Hx Hgt. destruct (m_eq S m x) eqn:E; [|reflexivity]. apply (ms_eq S ok sm HS) in E. subst x.
    rewrite (gt_irrefl ok gt HO m Om) in Hgt. discriminate. }
  rewrite Forall_forall in OD, OG, DD, DG.
  unfold products. cbn [flat_map map app csum]. fold m. rewrite (proj2 (ms_eq S ok sm HS m m) eq_refl).
  rewrite (csum_notin K).
  - ring.
  - intros x Hx. rewrite map_app in Hx. apply in_app_iff in Hx as [Hx|Hx].
    + rewrite map_map in Hx. apply in_map_iff in Hx as (w & <- & Hw). cbn.
      apply Ne; [apply MO; auto|]. unfold m. apply (ms_gt_mul_l S ok sm HS); auto.
    + apply in_map_iff in Hx as (y & <- & Hy). apply in_flat_map in Hy as (t & Ht & Hy).
      assert (G1 : gt m (m_mul S (fst t) (fst g)) = true) by (apply (ms_gt_mul S ok sm HS); auto).
      change ((m_mul S (fst t) (fst g), cmul K (snd t) (snd g)) ::
        map (fun u => (m_mul S (fst t) (fst u), cmul K (snd t) (snd u))) G) with
        (map (fun u => (m_mul S (fst t) (fst u), cmul K (snd t) (snd u))) (g :: G)) in Hy.
      destruct Hy as [<-|Hy]; [cbn; apply Ne; auto|].
      apply in_map_iff in Hy as (w & <- & Hw). cbn. apply Ne; [apply MO; auto|].
      apply (gt_trans ok gt HO m (m_mul S (fst t) (fst g))); auto.
      apply (ms_gt_mul_l S ok sm HS); auto.
Qed.

(** cancellation: a product of non-zero polynomials is non-zero *)
Lemma mul_cancel (HD : domain_ok K) (H Q G : poly) : norm H -> norm Q -> norm G -> G <> [] ->
  req (rmul (graw H) (graw G)) (rmul (graw Q) (graw G)) -> H = Q.
Proof.
  intros NH NQ NG Gne HR.
  set (D := p_sub S K H Q). assert (ND : norm D) by (apply (p_sub_normal S ok sm K HS HK); assumption).
  assert (RD : req (graw D) (rsub K (graw H) (graw Q))) by apply (p_sub_req S ok sm K HS HK).
  assert (Z : req (rmul (graw D) (graw G)) r0).
  { rewrite RD. transitivity (rsub K (rmul (graw H) (graw G)) (rmul (graw Q) (graw G))); [ring|]. rewrite HR. ring. }
  destruct D as [|d0 D'] eqn:ED.
  - apply (gnormal_req S ok sm K HS HK); auto. transitivity (radd (graw Q) (rsub K (graw H) (graw Q))); [ring|].
    rewrite <- RD. change (graw []) with (@r0 C). ring.
  - exfalso. destruct G as [|g G']; [congruence|].
    pose proof (lead_coef_prod D' G' d0 g ND NG) as L.
    rewrite <- (products_req S ok sm K HS HK) in Z by (apply ND || apply NG).
    assert (Okm : ok (m_mul S (fst d0) (fst g))).
    { destruct ND as (O1 & _). destruct NG as (O2 & _). apply Forall_cons_iff in O1 as [O1 _].
      apply Forall_cons_iff in O2 as [O2 _]. apply (ms_mul_ok S ok sm HS); assumption. }
    assert (Okp : all_ok ok (products (m_mul S) K (d0 :: D') (g :: G'))).
    { apply Forall_forall. intros x Hx. unfold products in Hx. apply in_flat_map in Hx as (t & Ht & Hx).
      apply in_map_iff in Hx as (w & <- & Hw). cbn. destruct ND as (O1 & _). destruct NG as (O2 & _).
      unfold all_ok in O1, O2. rewrite Forall_forall in O1, O2. apply (ms_mul_ok S ok sm HS); auto. }
    pose proof (req_csum S ok sm K HS _ [] _ Okp ltac:(constructor) Okm Z) as E.
    rewrite L in E. cbn in E.
    destruct ND as (_ & _ & N1). destruct NG as (_ & _ & N2). unfold nonzero in N1, N2.
    apply Forall_cons_iff in N1 as [N1 _]. apply Forall_cons_iff in N2 as [N2 _].
    destruct (domain_integral K HD _ _ E); contradiction.
Qed.

Lemma csum_desc_in m k (tr : poly) : desc gt tr -> all_ok ok tr -> In (m, k) tr ->
  csum K (m_eq S m) tr = k.
Proof.
  intros Hd Ho Hin. pose proof (ms_order S ok sm HS) as HO. induction tr as [|[a c] tr IH]; [destruct Hin|].
  apply (desc_cons gt) in Hd as [Hd Hgt]. apply Forall_cons_iff in Ho as [Oa Ho]. cbn [fst snd csum] in *.
  destruct Hin as [[= -> ->]|Hin].
  - rewrite (proj2 (ms_eq S ok sm HS m m) eq_refl). rewrite (csum_eq_lt ok gt (m_eq S) K HO (ms_eq S ok sm HS)); auto. ring.
  - destruct (m_eq S m a) eqn:E; [|auto]. apply (ms_eq S ok sm HS) in E. subst a. exfalso.
    rewrite Forall_forall in Hgt. specialize (Hgt _ Hin). cbn in Hgt. rewrite (gt_irrefl ok gt HO m Oa) in Hgt. discriminate.
Qed.

Lemma exact_trace (HD : domain_ok K) (HQ : quorem_ok K) step (F G H : poly) g gs tr :
  norm F -> norm G -> norm H -> G = g :: gs ->
  (forall m k, fst (step m k) = fst (step_q (m_div S) K g m k)) ->
  dfin (okv F G) (okv F G) gt (m_mul S) K step G g F tr ->
  req (graw F) (rmul (graw H) (graw G)) ->
  tq step tr = H /\ Forall (fun t => snd (resid K step G g t) = c0 K) tr.
Proof.
  intros NF NG NH EG Hs1 Hfin HR.
  assert (Og : ok (fst g)) by (destruct NG as (O & _); rewrite EG in O; inversion O; assumption).
  assert (Zg : snd g <> c0 K) by (destruct NG as (_ & _ & O); rewrite EG in O; inversion O; assumption).
  assert (Hst : forall m k u, ok m -> k <> c0 K -> fst (step m k) = Some u ->
     ok (fst u) /\ m_mul S (fst u) (fst g) = m /\ snd u <> c0 K).
  { intros m k u Hm Hk. rewrite Hs1. apply step_q_ok; assumption. }
  pose proof (tq_norm _ F G g Hst tr Hfin) as NQ.
  pose proof (fin_req _ F G NG g tr Hfin) as Hq.
  set (Q := tq step tr) in *.
  set (D := p_sub S K H Q). assert (ND : norm D) by (apply (p_sub_normal S ok sm K HS HK); assumption).
  assert (RD : req (graw D) (rsub K (graw H) (graw Q))) by apply (p_sub_req S ok sm K HS HK).
  set (rs := map (resid K step G g) tr) in *.
  assert (Z : req (graw rs) (rmul (graw D) (graw G))).
  { rewrite RD. transitivity (rsub K (rmul (graw H) (graw G)) (rmul (graw Q) (graw G))); [|ring].
    rewrite <- HR, Hq. ring. }
  destruct Hfin as (T1 & T2 & T3 & T4 & T5 & T6).
  assert (T1' : all_ok ok tr) by (eapply all_okv; eauto).
  assert (Rf : forall t, fst (resid K step G g t) = fst t).
  { intros t. unfold resid. destruct (fst (step _ _)); reflexivity. }
  assert (Rm : map fst rs = map fst tr).
  { unfold rs. rewrite map_map. apply map_ext. exact Rf. }
  assert (Okr : all_ok ok rs).
  { unfold rs, all_ok. rewrite Forall_map. eapply Forall_impl; [|exact T1']. intros t Ht. rewrite Rf. exact Ht. }
  assert (Dr : desc gt rs) by (unfold desc in *; rewrite Rm; exact T2).
  destruct D as [|d0 D'] eqn:ED.
  - split.
    + symmetry. apply (gnormal_req S ok sm K HS HK); auto. transitivity (radd (graw Q) (rsub K (graw H) (graw Q))); [ring|].
      rewrite <- RD. change (graw []) with (@r0 C). ring.
    + apply Forall_forall. intros t Ht. pose proof (in_map (resid K step G g) tr t Ht) as Hin. fold rs in Hin.
      set (r := resid K step G g t) in *. destruct r as [m k]. cbn [snd].
      rewrite <- (csum_desc_in m k rs Dr Okr Hin).
      assert (Om : ok m) by (unfold all_ok in Okr; rewrite Forall_forall in Okr; apply (Okr _ Hin)).
      apply (req_csum S ok sm K HS rs [] m Okr ltac:(constructor) Om). exact Z.
  - exfalso. subst G.
    pose proof (lead_coef_prod D' gs d0 g ND NG) as L. set (m := m_mul S (fst d0) (fst g)) in *.
    assert (Okm : ok m).
    { destruct ND as (O1 & _). apply Forall_cons_iff in O1 as [O1 _]. apply (ms_mul_ok S ok sm HS); assumption. }
    assert (Okp : all_ok ok (products (m_mul S) K (d0 :: D') (g :: gs))).
    { apply Forall_forall. intros x Hx. unfold products in Hx. apply in_flat_map in Hx as (t & Ht & Hx).
      apply in_map_iff in Hx as (w & <- & Hw). cbn. destruct ND as (O1 & _). destruct NG as (O2 & _).
      unfold all_ok in O1, O2. rewrite Forall_forall in O1, O2. apply (ms_mul_ok S ok sm HS); auto. }
    rewrite <- (products_req S ok sm K HS HK) in Z by (apply ND || apply NG).
    pose proof (req_csum S ok sm K HS rs _ m Okr Okp Okm Z) as E. rewrite L in E.
    assert (Zd : snd d0 <> c0 K) by (destruct ND as (_ & _ & N1); apply Forall_cons_iff in N1; apply N1).
    assert (Pz : cmul K (snd d0) (snd g) <> c0 K).
    { intros e. destruct (domain_integral K HD _ _ e); contradiction. }
    assert (Hin : In m (map fst tr)).
    { rewrite <- Rm. destruct (in_dec (fun a b => Bool.reflect_dec _ _ (iff_reflect _ _ (iff_sym (ms_eq S ok sm HS a b)))) m (map fst rs)) as [|Hn]; [assumption|exfalso].
      apply Pz. rewrite <- E. apply (csum_notin K). intros x Hx. destruct (m_eq S m x) eqn:E'; [|reflexivity].
      apply (ms_eq S ok sm HS) in E'. subst x. contradiction. }
    apply in_map_iff in Hin as ([m' k] & Em & Hin). cbn in Em. subst m'.
    assert (Kz : k <> c0 K).
    { unfold nonzero in T3. rewrite Forall_forall in T3. apply (T3 _ Hin). }
    assert (Hin' : In (resid K step (g :: gs) g (m, k)) rs) by (apply in_map; exact Hin).
    set (rk := resid K step (g :: gs) g (m, k)) in *.
    assert (Erk : rk = (m, snd rk)).
    { rewrite (surjective_pairing rk) at 1. f_equal. unfold rk. rewrite Rf. reflexivity. }
    rewrite Erk in Hin'. rewrite (csum_desc_in m (snd rk) rs Dr Okr Hin') in E.
    (* the coefficient *)
    assert (Hdv : fst (m_div S m (fst g)) = true).
    { apply (ms_div S ok sm HS m (fst g) Okm Og). intros v. unfold m.
      destruct ND as (O1 & _). apply Forall_cons_iff in O1 as [O1 _].
      rewrite (exp_ms_mul S ok sm HS) by assumption. lia. }
    unfold rk, resid in E. rewrite Hs1 in E. unfold step_q in E. cbn [fst snd nth] in E.
    destruct (m_div S m (fst g)) as [dv m1]. cbn in Hdv. subst dv.
    destruct (is0_spec K HK (cquo K k (snd g))) as [E0|E0]; cbn [fst snd] in E.
    + rewrite E in E0. rewrite (quorem_exact K HQ) in E0 by assumption. contradiction.
    + assert (Ek : k = cmul K (snd d0 +c cquo K k (snd g)) (snd g)).
      { transitivity (csub K k (cmul K (cquo K k (snd g)) (snd g)) +c cmul K (cquo K k (snd g)) (snd g)); [ring|].
        rewrite E. ring. }
      pose proof (quorem_exact K HQ (snd d0 +c cquo K k (snd g)) (snd g) Zg) as X. rewrite <- Ek in X.
      apply Zd. transitivity (csub K (snd d0 +c cquo K k (snd g)) (cquo K k (snd g))); [ring|]. rewrite <- X. ring.
Qed.

Theorem exact_heap (HD : domain_ok K) (HQ : quorem_ok K) (F G H : poly) g gs :
  norm F -> norm G -> norm H -> G = g :: gs -> req (graw F) (rmul (graw H) (graw G)) ->
  exists fuel0, forall fuel, fuel0 <= fuel ->
    omap fst (heap_div gt (m_eq S) (m_mul S) K (step_q (m_div S) K g) G fuel F) = Ok H.
Proof.
  intros NF NG NH EG HR.
  assert (Og : ok (fst g)) by (destruct NG as (O & _); rewrite EG in O; inversion O; assumption).
  assert (Hst : forall m k u, ok m -> k <> c0 K -> fst (step_q (m_div S) K g m k) = Some u ->
     ok (fst u) /\ m_mul S (fst u) (fst g) = m /\ snd u <> c0 K) by (intros; eapply step_q_ok; eauto).
  destruct (heap_div_run (step_q (m_div S) K g) F G NF NG g gs EG Hst) as (tr & fuel0 & Hfin & Hrun).
  exists fuel0. intros fuel Hfu. rewrite (Hrun fuel Hfu). unfold omap. cbn [obind fst]. f_equal.
  apply (exact_trace HD HQ _ F G H g gs tr); auto.
Qed.

(** Without any divisibility assumption the quotient loop terminates with a normal quotient and every
    residual term is one the leading term of [G] does not divide (monomial or coefficient). *)
Theorem total_heap (F G : poly) g gs : norm F -> norm G -> G = g :: gs ->
  exists Q, norm Q /\ exists fuel0, forall fuel, fuel0 <= fuel ->
    omap fst (heap_div gt (m_eq S) (m_mul S) K (step_q (m_div S) K g) G fuel F) = Ok Q.
Proof.
  intros NF NG EG.
  assert (Og : ok (fst g)) by (destruct NG as (O & _); rewrite EG in O; inversion O; assumption).
  assert (Hst : forall m k u, ok m -> k <> c0 K -> fst (step_q (m_div S) K g m k) = Some u ->
     ok (fst u) /\ m_mul S (fst u) (fst g) = m /\ snd u <> c0 K) by (intros; eapply step_q_ok; eauto).
  destruct (heap_div_run (step_q (m_div S) K g) F G NF NG g gs EG Hst) as (tr & fuel0 & Hfin & Hrun).
  exists (tq (step_q (m_div S) K g) tr). split; [apply (tq_norm _ F G g Hst tr Hfin)|].
  exists fuel0. intros fuel Hfu. rewrite (Hrun fuel Hfu). reflexivity.
Qed.

(** The routine with remainder, over any domain whose coefficient division satisfies [quorem_ok]: the
    remainder is empty iff [G] divides [F], and then the quotient is exact. *)
Theorem divisible_heap (HD : domain_ok K) (HQ : quorem_ok K) (F G : poly) g gs :
  norm F -> norm G -> G = g :: gs ->
  exists Q R, norm Q /\
   (R = [] -> req (graw F) (rmul (graw Q) (graw G))) /\
   (forall H, norm H -> req (graw F) (rmul (graw H) (graw G)) -> Q = H /\ R = []) /\
   exists fuel0, forall fuel, fuel0 <= fuel ->
    heap_div gt (m_eq S) (m_mul S) K (step_qr (m_div S) K g) G fuel F = Ok (Q, R).
Proof.
  intros NF NG EG.
  assert (Og : ok (fst g)) by (destruct NG as (O & _); rewrite EG in O; inversion O; assumption).
  assert (Zg : snd g <> c0 K) by (destruct NG as (_ & _ & O); rewrite EG in O; inversion O; assumption).
  set (step := step_qr (m_div S) K g).
  assert (Hs1 : forall m k, fst (step m k) = fst (step_q (m_div S) K g m k)) by (intros; apply step_qr_fst).
  assert (Hst : forall m k u, ok m -> k <> c0 K -> fst (step m k) = Some u ->
     ok (fst u) /\ m_mul S (fst u) (fst g) = m /\ snd u <> c0 K).
  { intros m k u Hm Hk. rewrite Hs1. apply step_q_ok; assumption. }
  destruct (heap_div_run step F G NF NG g gs EG Hst) as (tr & fuel0 & Hfin & Hrun).
  exists (tq step tr), (trem step tr). split; [apply (tq_norm _ F G g Hst tr Hfin)|].
  assert (Key : forall t, snd t <> c0 K -> (snd (step (fst t) (snd t)) = [] <-> snd (resid K step G g t) = c0 K)).
  { intros [m k] Hk. cbn [snd] in Hk. unfold resid, step, step_qr. cbn [fst snd].
    destruct (m_div S m (fst g)) as [[] m1]; cbn [fst snd].
    - pose proof (quorem_eq K HQ k (snd g) Zg) as E.
      destruct (is0_spec K HK (cquo K k (snd g))) as [E0|E0], (is0_spec K HK (crem K k (snd g))) as [E1|E1]; cbn [fst snd].
      + rewrite E0, E1 in E. exfalso. apply Hk. rewrite E. ring.
      + split; [discriminate|contradiction].
      + split; [|reflexivity]. intros _. rewrite EG. cbn [nth]. rewrite E at 1. rewrite E1. ring.
      + split; [discriminate|]. rewrite EG. cbn [nth]. intros Ez. exfalso. apply E1.
        transitivity (csub K (cmul K (cquo K k (snd g)) (snd g) +c crem K k (snd g)) (cmul K (cquo K k (snd g)) (snd g))); [ring|].
        rewrite <- E. exact Ez.
    - split; [discriminate|contradiction]. }
  pose proof Hfin as (T1 & T2 & T3 & T4 & T5 & T6).
  assert (Tr : trem step tr = [] <-> Forall (fun t => snd (resid K step G g t) = c0 K) tr).
  { unfold trem. clear - T3 Key. induction T3 as [|t tr Ht T3 IH]; [split; auto|]. cbn [flat_map]. rewrite Forall_cons_iff, <- IH, <- (Key t Ht).
    split; [apply app_eq_nil|]. intros [-> ->]. reflexivity. }
  split; [|split; [|exists fuel0; exact Hrun]].
  - intros Hr. apply Tr in Hr. rewrite (fin_req _ F G NG g tr Hfin).
    assert (Z : req (graw (map (resid K step G g) tr)) r0).
    { apply (csum_graw sm K _ []). intros phi. clear - Hr HK. induction Hr as [|t tr Ht Hr IH]; [reflexivity|].
      cbn [map]. destruct (resid K step G g t) as [m k]. cbn [snd] in Ht. subst k. cbn [csum]. rewrite IH. cbn [csum].
      destruct (phi m); ring. }
    rewrite Z. ring.
  - intros H NH HR. destruct (exact_trace HD HQ step F G H g gs tr NF NG NH EG Hs1 Hfin HR) as [E1 E2].
    split; [exact E1|]. apply Tr, E2.
Qed.

Lemma norm_single_mul (HD : domain_ok K) g H : ok (fst g) -> snd g <> c0 K -> norm H ->
  norm (map (fun u => (m_mul S (fst u) (fst g), cmul K (snd u) (snd g))) H).
Proof.
  intros Og Zg NH.
  replace (map _ H) with (map (fun u => (m_mul S (fst g) (fst u), cmul K (snd g) (snd u))) H).
  - apply (norm_scale_mono S ok sm K HS HD); assumption.
  - apply map_ext_in. intros u Hu. destruct NH as (O & _). unfold all_ok in O. rewrite Forall_forall in O.
    rewrite (ms_mul_comm S ok sm HS (fst g) (fst u)) by auto. f_equal. ring.
Qed.

Theorem exact_single (HD : domain_ok K) (HQ : quorem_ok K) (F H : poly) g :
  norm F -> norm [g] -> norm H -> req (graw F) (rmul (graw H) (graw [g])) -> div1_q (m_div S) K g F = H.
Proof.
  intros NF NG NH HR.
  assert (Og : ok (fst g)) by (destruct NG as (O & _); inversion O; assumption).
  assert (Zg : snd g <> c0 K) by (destruct NG as (_ & _ & O); inversion O; assumption).
  assert (EF : F = map (fun u => (m_mul S (fst u) (fst g), cmul K (snd u) (snd g))) H).
  { apply (gnormal_req S ok sm K HS HK); [exact NF|apply norm_single_mul; assumption|].
    rewrite HR, <- (products_req S ok sm K HS HK) by (apply NH || apply NG).
    replace (products (m_mul S) K H [g]) with (map (fun u => (m_mul S (fst u) (fst g), cmul K (snd u) (snd g))) H); [reflexivity|].
    unfold products. clear. induction H as [|h H IH]; [reflexivity|]. cbn [flat_map map app] in *. rewrite IH. reflexivity. }
  subst F. unfold div1_q. clear NF HR. destruct NH as (OH & _).
  induction OH as [|h H Oh OH IH]; [reflexivity|]. cbn [map flat_map fst snd]. cbn [fst] in Oh.
  assert (Omul : ok (m_mul S (fst h) (fst g))) by (apply (ms_mul_ok S ok sm HS); assumption).
  destruct (ms_div S ok sm HS (m_mul S (fst h) (fst g)) (fst g) Omul Og) as [D1 D2].
  assert (Hdv : fst (m_div S (m_mul S (fst h) (fst g)) (fst g)) = true).
  { apply D1. intros v. rewrite (exp_ms_mul S ok sm HS) by assumption. lia. }
  specialize (D2 Hdv). destruct (m_div S _ _) as [dv m1]. cbn [fst snd] in *. subst dv. cbn [app].
  rewrite (quorem_exact K HQ) by assumption. rewrite IH. destruct D2 as [O1 E1].
  assert (m1 = fst h) as ->.
  { apply (ms_inj S ok sm HS); auto. intros v.
    assert (X : exp (sm (m_mul S m1 (fst g))) v = exp (sm (m_mul S (fst h) (fst g))) v) by (rewrite E1; reflexivity).
    rewrite !(exp_ms_mul S ok sm HS) in X by assumption. lia. }
  destruct h; reflexivity.
Qed.

(** contract of a packed division *)
Definition dcomp_good (compress : poly -> poly -> outcome (option poly)) (F G : poly) : Prop :=
  match compress F G with
  | Ok None => True
  | Ok (Some q) => forall H, norm H -> req (graw F) (rmul (graw H) (graw G)) -> q = H
  | _ => False
  end.

Theorem p_div_exact (HD : domain_ok K) (HQ : quorem_ok K) compress (F G H : poly) :
  dcomp_good compress F G -> norm F -> norm G -> norm H -> G <> [] -> req (graw F) (rmul (graw H) (graw G)) ->
  exists fuel0, forall fuel, fuel0 <= fuel ->
    pair_vec_div gt (m_eq S) (m_mul S) (m_div S) K fuel compress F G = Ok H.
Proof.
  intros HC NF NG NH Gne HR. destruct G as [|g gs]; [congruence|]. unfold pair_vec_div.
  destruct F as [|f F'].
  - exists 0. intros _ _. f_equal. apply (mul_cancel HD [] H (g :: gs)); auto using norm_nil.
  - set (F := f :: F') in *. destruct gs as [|g2 gs].
    + exists 0. intros _ _. f_equal. apply exact_single; assumption.
    + unfold dcomp_good in HC. destruct (compress F (g :: g2 :: gs)) as [[q|]| | |]; try contradiction.
      * exists 0. intros fuel _. cbn [obind]. f_equal. apply HC; assumption.
      * cbn [obind]. eapply exact_heap; eauto.
Qed.

(** ** The divisibility test: with-remainder division of any domain *)
Definition divtest_ok (F G Q R : poly) : Prop :=
  (R = [] -> norm Q /\ req (graw F) (rmul (graw Q) (graw G))) /\
  (forall H, norm H -> req (graw F) (rmul (graw H) (graw G)) -> Q = H /\ R = []).
Definition dtcomp_good (compress : poly -> poly -> outcome (option (poly * poly))) (F G : poly) : Prop :=
  match compress F G with
  | Ok None => True
  | Ok (Some (Q, R)) => divtest_ok F G Q R
  | _ => False
  end.

Lemma divtest_single (HD : domain_ok K) (HQ : quorem_ok K) (F : poly) g : norm F -> norm [g] ->
  let '(Q, R) := div1_qr (m_div S) K g F in divtest_ok F [g] Q R.
Proof.
  intros NF NG.
  assert (Og : ok (fst g)) by (destruct NG as (O & _); inversion O; assumption).
  assert (Zg : snd g <> c0 K) by (destruct NG as (_ & _ & O); inversion O; assumption).
  set (qf := fun i : M * C => let '(d, m) := m_div S (fst i) (fst g) in
       if d then (let k := cquo K (snd i) (snd g) in if is0 K k then [] else [(m, k)]) else []).
  set (rf := fun i : M * C => let '(d, m) := m_div S (fst i) (fst g) in
       if d then (let k1 := crem K (snd i) (snd g) in if is0 K k1 then [] else [(m, k1)]) else [i]).
  change (div1_qr (m_div S) K g F) with (flat_map qf F, flat_map rf F).
  assert (Key : forall t, ok (fst t) -> snd t <> c0 K -> rf t = [] ->
     exists u, qf t = [u] /\ ok (fst u) /\ snd u <> c0 K /\ t = (m_mul S (fst u) (fst g), cmul K (snd u) (snd g))).
  { intros [m k] Ot Ht. cbn [fst snd] in *. unfold rf, qf. cbn [fst snd].
    destruct (ms_div S ok sm HS m (fst g) Ot Og) as [_ D].
    destruct (m_div S m (fst g)) as [[] m1]; cbv zeta; [|discriminate]. cbn [fst snd] in D. destruct (D eq_refl) as [D1 D2].
    pose proof (quorem_eq K HQ k (snd g) Zg) as E.
    destruct (is0_spec K HK (crem K k (snd g))) as [E1|E1]; [|discriminate]. intros _.
    destruct (is0_spec K HK (cquo K k (snd g))) as [E0|E0].
    - rewrite E0, E1 in E. exfalso. apply Ht. rewrite E. ring.
    - eexists. split; [reflexivity|]. cbn [fst snd]. split; [exact D1|]. split; [exact E0|].
      rewrite D2. f_equal. rewrite E at 1. rewrite E1. ring. }
  assert (Inv : forall u, ok (fst u) -> snd u <> c0 K ->
     qf (m_mul S (fst u) (fst g), cmul K (snd u) (snd g)) = [u] /\ rf (m_mul S (fst u) (fst g), cmul K (snd u) (snd g)) = []).
  { intros u Ou Zu. unfold qf, rf. cbn [fst snd].
    assert (Omul : ok (m_mul S (fst u) (fst g))) by (apply (ms_mul_ok S ok sm HS); assumption).
    destruct (ms_div S ok sm HS (m_mul S (fst u) (fst g)) (fst g) Omul Og) as [D1 D2].
    assert (Hdv : fst (m_div S (m_mul S (fst u) (fst g)) (fst g)) = true).
    { apply D1. intros v. rewrite (exp_ms_mul S ok sm HS) by assumption. lia. }
    specialize (D2 Hdv). destruct (m_div S _ _) as [dv m1]. cbn [fst snd] in *. subst dv. cbv zeta.
    pose proof (quorem_eq K HQ (cmul K (snd u) (snd g)) (snd g) Zg) as E.
    rewrite (quorem_exact K HQ) in * by assumption.
    assert (Er : crem K (cmul K (snd u) (snd g)) (snd g) = c0 K).
    { transitivity (csub K (cmul K (snd u) (snd g) +c crem K (cmul K (snd u) (snd g)) (snd g)) (cmul K (snd u) (snd g))); [ring|].
      rewrite <- E. ring. }
    rewrite Er. destruct (is0_spec K HK (c0 K)) as [_|n]; [|congruence].
    destruct (is0_spec K HK (snd u)) as [|_]; [contradiction|]. split; [|reflexivity].
    destruct D2 as [O1 E1].
    assert (m1 = fst u) as ->; [|destruct u; reflexivity].
    apply (ms_inj S ok sm HS); auto. intros v.
    assert (X : exp (sm (m_mul S m1 (fst g))) v = exp (sm (m_mul S (fst u) (fst g))) v) by (rewrite E1; reflexivity).
    rewrite !(exp_ms_mul S ok sm HS) in X by assumption. lia. }
  split.
  - intros Hr.
    assert (X : exists Q, flat_map qf F = Q /\ all_ok ok Q /\ nonzero K Q /\
        F = map (fun u => (m_mul S (fst u) (fst g), cmul K (snd u) (snd g))) Q).
    { destruct NF as (O & _ & Z). clear - O Z Hr Key. revert O Z Hr. induction F as [|t F IH]; intros O Z Hr.
      - exists []. repeat split; constructor.
      - cbn [flat_map] in *. apply app_eq_nil in Hr as [R1 R2]. apply Forall_cons_iff in O as [O1 O2]. apply Forall_cons_iff in Z as [Z1 Z2].
        destruct (IH O2 Z2 R2) as (Q & E & A & B & E2). destruct (Key t O1 Z1 R1) as (u & Eu & Ou & Zu & Et).
        exists (u :: Q). rewrite E, Eu. repeat split; [constructor; assumption|constructor; assumption|]. cbn [map]. rewrite <- E2, <- Et. reflexivity. }
    destruct X as (Q & -> & OQ & ZQ & EF).
    assert (DQ : desc gt Q).
    { destruct NF as (_ & D & _). rewrite EF in D. unfold desc in *. rewrite map_map in D. cbn [fst] in D. clear - D OQ HS Og.
      induction Q as [|u Q IH]; [constructor|]. cbn [map] in *. apply StronglySorted_inv in D as [D1 D2].
      apply Forall_cons_iff in OQ as [O1 O2]. constructor; [apply IH; assumption|].
      rewrite Forall_map in D2 |- *. unfold all_ok in O2. rewrite Forall_forall in O2, D2 |- *. intros w Hw. specialize (D2 w Hw). specialize (O2 w Hw).
      destruct (gt_total ok gt (ms_order S ok sm HS) _ _ O1 O2) as [e|[e|e]]; [|exact e|]; exfalso.
      - rewrite e in D2. rewrite (gt_irrefl ok gt (ms_order S ok sm HS)) in D2 by (apply (ms_mul_ok S ok sm HS); assumption). discriminate.
      - apply (ms_gt_mul S ok sm HS _ _ (fst g)) in e; auto.
        rewrite (gt_asym ok gt (ms_order S ok sm HS) (m_mul S (fst u) (fst g)) (m_mul S (fst w) (fst g))) in e;
          [discriminate|apply (ms_mul_ok S ok sm HS); assumption|apply (ms_mul_ok S ok sm HS); assumption|exact D2]. }
    assert (NQ : norm Q) by (split; [exact OQ|split; assumption]).
    split; [exact NQ|]. rewrite <- (products_req S ok sm K HS HK) by (apply NQ || apply NG).
    assert (products (m_mul S) K Q [g] = F) as ->; [|reflexivity]. rewrite EF.
    unfold products. clear. induction Q as [|h H IH]; [reflexivity|]. cbn [flat_map map app] in *. rewrite IH. reflexivity.
  - intros H NH HR.
    assert (EF : F = map (fun u => (m_mul S (fst u) (fst g), cmul K (snd u) (snd g))) H).
    { apply (gnormal_req S ok sm K HS HK); [exact NF|apply norm_single_mul; assumption|].
      rewrite HR, <- (products_req S ok sm K HS HK) by (apply NH || apply NG).
      replace (products (m_mul S) K H [g]) with (map (fun u => (m_mul S (fst u) (fst g), cmul K (snd u) (snd g))) H); [reflexivity|].
      unfold products. clear. induction H as [|h H IH]; [reflexivity|]. cbn [flat_map map app] in *. rewrite IH. reflexivity. }
    destruct NH as (OH & _ & ZH). rewrite EF. clear - OH ZH Inv. induction H as [|u H IH]; [split; reflexivity|].
    apply Forall_cons_iff in OH as [O1 O2]. apply Forall_cons_iff in ZH as [Z1 Z2].
    destruct (Inv u O1 Z1) as [I1 I2]. destruct (IH O2 Z2) as [J1 J2]. cbn [map flat_map].
    rewrite I1, I2, J1, J2. split; reflexivity.
Qed.

Theorem p_div_test (HD : domain_ok K) (HQ : quorem_ok K) compress (F G : poly) :
  dtcomp_good compress F G -> norm F -> norm G -> G <> [] ->
  exists Q R, divtest_ok F G Q R /\ exists fuel0, forall fuel, fuel0 <= fuel ->
    pair_vec_div_rem gt (m_eq S) (m_mul S) (m_div S) K fuel compress F G = Ok (Q, R).
Proof.
  intros HC NF NG Gne. unfold pair_vec_div_rem. destruct G as [|g gs]; [congruence|].
  destruct F as [|f F'].
  - exists [], []. split; [|exists 0; reflexivity]. split.
    + intros _. split; [apply norm_nil|]. reflexivity.
    + intros H NH HR. split; [|reflexivity]. apply (mul_cancel HD [] H (g :: gs)); auto using norm_nil.
  - set (F := f :: F') in *. destruct gs as [|g2 gs].
    + pose proof (divtest_single HD HQ F g NF NG) as X.
      destruct (div1_qr (m_div S) K g F) as [Q R]. exists Q, R. split; [exact X|]. exists 0. reflexivity.
    + unfold dtcomp_good in HC.
      destruct (compress F (g :: g2 :: gs)) as [[[Q R]|]| | |]; try contradiction.
      * exists Q, R. split; [exact HC|]. exists 0. reflexivity.
      * cbn [obind]. destruct (divisible_heap HD HQ F (g :: g2 :: gs) g (g2 :: gs) NF NG eq_refl) as (Q & R & A1 & A2 & A3 & A4).
        exists Q, R. split; [split; auto|exact A4].
Qed.

(** ** Division with remainder over a field *)
Definition irreducible_by (g : M * C) (R : poly) : Prop :=
  Forall (fun t => ~ mdivides (sm (fst g)) (sm (fst t))) R.

Definition divrem_ok (F G Q R : poly) (g : M * C) : Prop :=
  norm Q /\ norm R /\ irreducible_by g R /\ req (graw F) (radd (rmul (graw Q) (graw G)) (graw R)).

Theorem field_heap (HF : field_ok K) (F G : poly) g gs :
  norm F -> norm G -> G = g :: gs ->
  exists Q R, divrem_ok F G Q R g /\
  exists fuel0, forall fuel, fuel0 <= fuel ->
    heap_div gt (m_eq S) (m_mul S) K (step_qr (m_div S) K g) G fuel F = Ok (Q, R).
Proof.
  intros NF NG EG.
  assert (Og : ok (fst g)) by (destruct NG as (O & _); rewrite EG in O; inversion O; assumption).
  assert (Zg : snd g <> c0 K) by (destruct NG as (_ & _ & O); rewrite EG in O; inversion O; assumption).
  set (step := step_qr (m_div S) K g).
  assert (Hst : forall m k u, ok m -> k <> c0 K -> fst (step m k) = Some u ->
     ok (fst u) /\ m_mul S (fst u) (fst g) = m /\ snd u <> c0 K).
  { intros m k u Hm Hk. unfold step. rewrite step_qr_fst. apply step_q_ok; assumption. }
  destruct (heap_div_run step F G NF NG g gs EG Hst) as (tr & fuel0 & Hfin & Hrun).
  exists (tq step tr), (trem step tr). split; [|exists fuel0; exact Hrun].
  pose proof (tq_norm _ F G g Hst tr Hfin) as NQ.
  pose proof (fin_req _ F G NG g tr Hfin) as Hq.
  destruct Hfin as (T1 & T2 & T3 & T4 & T5 & T6).
  assert (T1' : all_ok ok tr) by (eapply all_okv; eauto). clear T1 T4 T5 T6.
  assert (Es : forall t : M * C, snd (step (fst t) (snd t)) = if fst (m_div S (fst t) (fst g)) then [] else [t]).
  { intros t. unfold step, step_qr. destruct (m_div S (fst t) (fst g)) as [[] m1]; cbn [fst snd].
    - rewrite (field_rem K HF) by assumption. destruct (is0_spec K HK (c0 K)); [reflexivity|congruence].
    - destruct t; reflexivity. }
  assert (Etr : trem step tr = filter (fun t => negb (fst (m_div S (fst t) (fst g)))) tr).
  { unfold trem. clear - Es. induction tr as [|t tr IH]; [reflexivity|]. cbn [flat_map filter]. rewrite Es, IH.
    destruct (fst (m_div S (fst t) (fst g))); reflexivity. }
  split; [exact NQ|]. split; [|split].
  - rewrite Etr. split; [|split].
    + apply incl_Forall with (l1 := tr); [intros t Ht; apply filter_In in Ht; apply Ht|exact T1'].
    + clear - T2. induction tr as [|t tr IH]; [constructor|]. apply (desc_cons gt) in T2 as [D1 D2]. cbn [filter].
      destruct (negb _); [|apply IH, D1]. apply desc_cons. split; [apply IH, D1|].
      apply incl_Forall with (l1 := tr); [intros u Hu; apply filter_In in Hu; apply Hu|exact D2].
    + apply incl_Forall with (l1 := tr); [intros t Ht; apply filter_In in Ht; apply Ht|exact T3].
  - rewrite Etr. apply Forall_forall. intros t Ht. apply filter_In in Ht as [Ht Hn]. intros Hd.
    unfold all_ok in T1'. rewrite Forall_forall in T1'.
    apply (ms_div S ok sm HS (fst t) (fst g) (T1' t Ht) Og) in Hd. rewrite Hd in Hn. discriminate.
  - rewrite Hq.
    assert (Er : forall t, resid K step G g t = (fst t, if fst (m_div S (fst t) (fst g)) then c0 K else snd t)).
    { intros [m k]. unfold resid, step, step_qr. cbn [fst snd].
      destruct (m_div S m (fst g)) as [[] m1]; cbn [fst snd]; [|reflexivity].
      assert (E0 : csub K k (cmul K (cquo K k (snd g)) (snd g)) = c0 K).
      { rewrite (field_quo K HF) by assumption. ring. }
      destruct (is0_spec K HK (cquo K k (snd g))) as [E|E]; cbn [fst snd].
      - f_equal. transitivity (csub K k (cmul K (cquo K k (snd g)) (snd g)) +c cmul K (cquo K k (snd g)) (snd g)); [ring|].
        rewrite E0, E. ring.
      - rewrite EG. cbn [nth]. rewrite E0. reflexivity. }
    assert (Rr : req (graw (map (resid K step G g) tr)) (graw (trem step tr))).
    { apply (csum_graw sm K). intros phi. rewrite Etr. clear - HK Er. induction tr as [|[m k] tr IH]; [reflexivity|].
      cbn [map filter fst]. rewrite Er. cbn [fst snd].
      destruct (fst (m_div S m (fst g))); cbn [negb csum]; rewrite IH; destruct (phi m); ring. }
    rewrite Rr. reflexivity.
Qed.

Theorem field_single (HF : field_ok K) (F : poly) g : norm F -> norm [g] ->
  let '(Q, R) := div1_qr (m_div S) K g F in divrem_ok F [g] Q R g.
Proof.
  intros NF NG. pose proof (field_domain K HF) as HD.
  assert (Og : ok (fst g)) by (destruct NG as (O & _); inversion O; assumption).
  assert (Zg : snd g <> c0 K) by (destruct NG as (_ & _ & O); inversion O; assumption).
  set (dv := fun t : M * C => fst (m_div S (fst t) (fst g))).
  assert (ER : flat_map (fun i : M * C => let '(d, m) := m_div S (fst i) (fst g) in
      if d then let k1 := crem K (snd i) (snd g) in if is0 K k1 then [] else [(m, k1)] else [i]) F
      = filter (fun t => negb (dv t)) F).
  { set (rf := fun i : M * C => _).
    assert (Er : forall t, rf t = if dv t then [] else [t]).
    { intros t. unfold rf, dv. destruct (m_div S (fst t) (fst g)) as [[] m1]; cbn [fst snd]; [|reflexivity].
      rewrite (field_rem K HF) by assumption. cbv zeta. destruct (is0_spec K HK (c0 K)); [reflexivity|congruence]. }
    clear - Er. induction F as [|t F IH]; [reflexivity|]. cbn [flat_map filter]. rewrite Er, IH.
    destruct (dv t); reflexivity. }
  assert (Qz : forall k, k <> c0 K -> cquo K k (snd g) <> c0 K).
  { intros k Hk E. apply Hk. rewrite <- (field_quo K HF k (snd g)) by assumption. rewrite E. ring. }
  set (qf := fun t : M * C => (snd (m_div S (fst t) (fst g)), cquo K (snd t) (snd g))).
  assert (EQ : flat_map (fun i : M * C => let '(d, m) := m_div S (fst i) (fst g) in
      if d then let k := cquo K (snd i) (snd g) in if is0 K k then [] else [(m, k)] else []) F
      = map qf (filter dv F)).
  { destruct NF as (_ & _ & NZ). set (rf := fun i : M * C => _).
    assert (Er : forall t, snd t <> c0 K -> rf t = if dv t then [qf t] else []).
    { intros t Ht. unfold rf, dv, qf. destruct (m_div S (fst t) (fst g)) as [[] m1]; cbn [fst snd]; [|reflexivity].
      cbv zeta. destruct (is0_spec K HK (cquo K (snd t) (snd g))) as [E0|E0]; [exfalso; eapply Qz; eauto|reflexivity]. }
    clear - NZ Er. induction NZ as [|t F Ht NZ IH]; [reflexivity|]. cbn [flat_map filter].
    rewrite IH, (Er t Ht). destruct (dv t); reflexivity. }
  assert (EE : div1_qr (m_div S) K g F = (map qf (filter dv F), filter (fun t => negb (dv t)) F)).
  { unfold div1_qr. f_equal; [exact EQ|exact ER]. }
  rewrite EE. clear ER EQ EE.
  assert (Nfil : forall f, norm (filter f F)).
  { intros f. destruct NF as (O & Dd & NZ). split; [|split].
    + apply incl_Forall with (l1 := F); [intros t Ht; apply filter_In in Ht; apply Ht|exact O].
    + clear - Dd. induction F as [|t F IH]; [constructor|]. apply (desc_cons gt) in Dd as [D1 D2]. cbn [filter].
      destruct (f t); [|apply IH, D1]. apply desc_cons. split; [apply IH, D1|].
      apply incl_Forall with (l1 := F); [intros u Hu; apply filter_In in Hu; apply Hu|exact D2].
    + apply incl_Forall with (l1 := F); [intros t Ht; apply filter_In in Ht; apply Ht|exact NZ]. }
  pose proof (Nfil dv) as (FO & FD & FZ).
  assert (Hdv : forall t, In t (filter dv F) -> ok (fst t) /\ ok (snd (m_div S (fst t) (fst g))) /\
      m_mul S (snd (m_div S (fst t) (fst g))) (fst g) = fst t).
  { intros t Ht. unfold all_ok in FO. rewrite Forall_forall in FO. pose proof (FO t Ht) as Ot.
    apply filter_In in Ht as [_ Ht]. split; [exact Ot|]. apply (ms_div S ok sm HS (fst t) (fst g) Ot Og). exact Ht. }
  assert (NQ : norm (map qf (filter dv F))).
  { split; [|split].
    - unfold all_ok. rewrite Forall_map. apply Forall_forall. intros t Ht. apply Hdv, Ht.
    - unfold desc. rewrite map_map. cbn [fst qf].
      assert (X : forall l, incl l (filter dv F) -> desc gt l -> StronglySorted (fun a b => gt a b = true) (map (fun x : M * C => snd (m_div S (fst x) (fst g))) l)).
      { induction l as [|t l IH]; intros Hi Hd; [constructor|]. apply (desc_cons gt) in Hd as [D1 D2].
        cbn [map]. constructor; [apply IH; [intros x Hx; apply Hi; right; exact Hx|exact D1]|].
        rewrite Forall_map. rewrite Forall_forall in D2 |- *. intros u Hu. specialize (D2 u Hu).
        destruct (Hdv t ltac:(apply Hi; left; reflexivity)) as (T1 & T2 & T3).
        destruct (Hdv u ltac:(apply Hi; right; exact Hu)) as (U1 & U2 & U3).
        destruct (gt_total ok gt (ms_order S ok sm HS) _ _ T2 U2) as [e|[e|e]]; [|exact e|]; exfalso.
        - rewrite <- T3, <- U3, e in D2. rewrite U3 in D2. rewrite (gt_irrefl ok gt (ms_order S ok sm HS)) in D2 by assumption. discriminate.
        - apply (ms_gt_mul S ok sm HS _ _ (fst g)) in e; auto. rewrite T3, U3 in e.
          rewrite (gt_asym ok gt (ms_order S ok sm HS) _ _ T1 U1 D2) in e. discriminate. }
      apply X; [apply incl_refl|exact FD].
    - unfold nonzero in *. rewrite Forall_map. eapply Forall_impl; [|exact FZ]. intros t Ht. apply Qz, Ht. }
  split; [exact NQ|]. split; [apply Nfil|]. split.
  - apply Forall_forall. intros t Ht. apply filter_In in Ht as [Ht Hn]. intros Hd.
    destruct NF as (O & _). unfold all_ok in O. rewrite Forall_forall in O.
    apply (ms_div S ok sm HS (fst t) (fst g) (O t Ht) Og) in Hd. unfold dv in Hn. rewrite Hd in Hn. discriminate.
  - rewrite <- (products_req S ok sm K HS HK) by (apply NQ || apply NG).
    assert (EP : products (m_mul S) K (map qf (filter dv F)) [g] = filter dv F).
    { assert (X : forall l, incl l (filter dv F) -> products (m_mul S) K (map qf l) [g] = l).
      { induction l as [|t l IH]; intros Hi; [reflexivity|]. 
        change (products (m_mul S) K (map qf (t :: l)) [g]) with
          ((m_mul S (fst (qf t)) (fst g), cmul K (snd (qf t)) (snd g)) :: products (m_mul S) K (map qf l) [g]).
        rewrite IH by (intros x Hx; apply Hi; right; exact Hx).
        destruct (Hdv t ltac:(apply Hi; left; reflexivity)) as (T1 & T2 & T3). unfold qf. cbn [fst snd].
        rewrite T3, (field_quo K HF) by assumption. destruct t; reflexivity. }
      apply X, incl_refl. }
    rewrite EP. unfold radd. rewrite <- graw_app. apply (csum_graw sm K). intros phi.
    rewrite (csum_app K HK). clear - HK. induction F as [|[m k] F IH]; [cbn; ring|]. cbn [filter csum].
    destruct (dv (m, k)); cbn [negb csum]; rewrite IH; destruct (phi m); ring.
Qed.

Definition drcomp_good (compress : poly -> poly -> outcome (option (poly * poly))) (F G : poly) : Prop :=
  match compress F G, G with
  | Ok None, _ => True
  | Ok (Some (Q, R)), g :: _ => divrem_ok F G Q R g
  | _, _ => False
  end.

Theorem p_div_rem_ok (HF : field_ok K) compress (F G : poly) g gs :
  drcomp_good compress F G -> norm F -> norm G -> G = g :: gs ->
  exists Q R, divrem_ok F G Q R g /\ exists fuel0, forall fuel, fuel0 <= fuel ->
    pair_vec_div_rem gt (m_eq S) (m_mul S) (m_div S) K fuel compress F G = Ok (Q, R).
Proof.
  intros HC NF NG EG. unfold pair_vec_div_rem. rewrite EG.
  destruct F as [|f F'].
  - exists [], []. split; [|exists 0; reflexivity]. split; [apply norm_nil|]. split; [apply norm_nil|]. split; [constructor|].
    cbn. reflexivity.
  - set (F := f :: F') in *. destruct gs as [|g2 gs].
    + pose proof (field_single HF F g NF) as X. rewrite <- EG in X. specialize (X NG).
      destruct (div1_qr (m_div S) K g F) as [Q R]. exists Q, R. split; [rewrite <- EG; exact X|]. exists 0. reflexivity.
    + rewrite <- EG in *. unfold drcomp_good in HC.
      destruct (compress F G) as [[[Q R]|]| | |]; try contradiction.
      * exists Q, R. split; [|exists 0; reflexivity].
        destruct G as [|x l]; [discriminate|]. injection EG as -> ->. exact HC.
      * cbn [obind]. apply (field_heap HF F G g (g2 :: gs)); assumption.
Qed.

(** Uniqueness: quotient and remainder are determined by the contract. *)
Theorem divrem_unique (HD : domain_ok K) (F G Q R Q' R' : poly) g gs :
  norm G -> G = g :: gs -> divrem_ok F G Q R g -> divrem_ok F G Q' R' g -> Q = Q' /\ R = R'.
Proof.
  intros NG EG (NQ & NR & IR & E) (NQ' & NR' & IR' & E').
  assert (Og : ok (fst g)) by (destruct NG as (O & _); rewrite EG in O; inversion O; assumption).
  assert (Zg : snd g <> c0 K) by (destruct NG as (_ & _ & O); rewrite EG in O; inversion O; assumption).
  set (D := p_sub S K Q Q'). assert (ND : norm D) by (apply (p_sub_normal S ok sm K HS HK); assumption).
  assert (RD : req (graw D) (rsub K (graw Q) (graw Q'))) by apply (p_sub_req S ok sm K HS HK).
  set (T := p_sub S K R' R). assert (NT : norm T) by (apply (p_sub_normal S ok sm K HS HK); assumption).
  assert (RT : req (graw T) (rsub K (graw R') (graw R))) by apply (p_sub_req S ok sm K HS HK).
  assert (Z : req (graw T) (rmul (graw D) (graw G))).
  { rewrite RT, RD. transitivity (rsub K (radd (rmul (graw Q) (graw G)) (graw R')) (radd (rmul (graw Q) (graw G)) (graw R))); [ring|].
    rewrite <- E, E'. ring. }
  assert (Dn : D = []).
  { destruct D as [|d0 D'] eqn:ED; [reflexivity|exfalso]. subst G.
    pose proof (lead_coef_prod D' gs d0 g ND NG) as L. set (m := m_mul S (fst d0) (fst g)) in *.
    assert (Od : ok (fst d0)) by (destruct ND as (O1 & _); apply Forall_cons_iff in O1; apply O1).
    assert (Okm : ok m) by (apply (ms_mul_ok S ok sm HS); assumption).
    assert (Okp : all_ok ok (products (m_mul S) K (d0 :: D') (g :: gs))).
    { apply Forall_forall. intros x Hx. unfold products in Hx. apply in_flat_map in Hx as (t & Ht & Hx).
      apply in_map_iff in Hx as (w & <- & Hw). cbn. destruct ND as (O1 & _). destruct NG as (O2 & _).
      unfold all_ok in O1, O2. rewrite Forall_forall in O1, O2. apply (ms_mul_ok S ok sm HS); auto. }
    rewrite <- (products_req S ok sm K HS HK) in Z by (apply ND || apply NG).
    assert (Md : mdivides (sm (fst g)) (sm m)).
    { intros v. unfold m. rewrite (exp_ms_mul S ok sm HS) by assumption. lia. }
    assert (Zr : forall X, norm X -> irreducible_by g X -> csum K (m_eq S m) X = c0 K).
    { intros X NX IX. apply (csum_notin K). intros x Hx. destruct (m_eq S m x) eqn:Ee; [|reflexivity].
      apply (ms_eq S ok sm HS) in Ee. subst x. apply in_map_iff in Hx as (t & Et & Ht).
      unfold irreducible_by in IX. rewrite Forall_forall in IX. exfalso. apply (IX t Ht). rewrite Et. exact Md. }
    pose proof (req_csum S ok sm K HS T _ m (proj1 NT) Okp Okm Z) as Ec. rewrite L in Ec.
    unfold T, p_sub in Ec. rewrite (csum_sub gt (m_eq S) K (ms_eq S ok sm HS) HK), (Zr R' NR' IR'), (Zr R NR IR) in Ec.
    assert (P0 : cmul K (snd d0) (snd g) = c0 K) by (rewrite <- Ec; ring).
    destruct ND as (_ & _ & N1). apply Forall_cons_iff in N1 as [N1 _].
    destruct (domain_integral K HD _ _ P0); contradiction. }
  rewrite Dn in RD, Z.
  split; apply (gnormal_req S ok sm K HS HK); auto.
  - transitivity (radd (graw Q') (rsub K (graw Q) (graw Q'))); [ring|]. rewrite <- RD. change (graw []) with (@r0 C). ring.
  - assert (Z' : req (graw T) r0) by (rewrite Z; reflexivity).
    transitivity (rsub K (graw R') (rsub K (graw R') (graw R))); [ring|]. rewrite <- RT, Z'. ring.
Qed.
End PolyDiv.
