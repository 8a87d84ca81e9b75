(** * Division with remainder where the coefficients need not form a field: whenever F = H*G + R holds for
      some H and some R no term of which is divisible by the leading monomial of G, the routine finds H and R. *)
From Coq Require Import Ring_theory Ring Setoid Morphisms Sorting.Sorted Wellfounded.
From Verif Require Import Prelude Coef Spec SpecProofs OrderSpec PairVec PairVecProofs MonoStruct MonoStructProofs Heap HeapProofs HeapMulProofs Poly PolyMulProofs Div DivProofs PolyDivProofs.

Section DivExact.
Context {M C : Type} (S : monos M) (ok : M -> Prop) (sm : M -> smono) (K : coefs C).
Context (HS : monos_ok S ok sm) (HK : ring_ok K) (HD : domain_ok K) (HQ : quorem_ok K).
Local Existing Instance HK.
Add Ring Cring : (ring_laws K HK).
Add Ring Rring : (rring K HK) (setoid (req_equiv K) (rring_ext K HK)).
Notation gt := (m_gt S).
Notation poly := (list (M * C)).
Notation norm := (normal ok gt K).
Notation graw := (graw sm).
Notation req := (req K).
Notation rmul := (rmul K).
Notation "x +c y" := (cadd K x y) (at level 50, left associativity).

Lemma irr_csum g m (X : poly) : norm X -> irreducible_by sm g X -> mdivides (sm (fst g)) (sm m) -> csum K (m_eq S m) X = c0 K.
Proof.
  intros NX IX Md. apply (csum_notin K). intros x Hx. destruct (m_eq S m x) eqn:Ee; [|reflexivity].
  apply (ms_eq S ok sm HS) in Ee. subst x. apply in_map_iff in Hx as (t & Et & Ht).
  unfold irreducible_by in IX. rewrite Forall_forall in IX. exfalso. apply (IX t Ht). rewrite Et. exact Md.
Qed.
Lemma norm_csum m k (X : poly) : norm X -> In (m, k) X -> csum K (m_eq S m) X = k.
Proof. intros (O & D & _) Hin. apply (csum_desc_in S ok sm K HS HK); assumption. Qed.

Lemma exact_trace_rem step (F G H R : poly) g gs tr :
  norm F -> norm G -> norm H -> norm R -> irreducible_by sm g R -> G = g :: gs ->
  (forall m k, fst (step m k) = fst (step_q (m_div S) K g m k)) ->
  dfin (okv ok sm F G) (okv ok sm F G) gt (m_mul S) K step G g F tr ->
  req (graw F) (radd (rmul (graw H) (graw G)) (graw R)) ->
  tq step tr = H /\ req (graw (map (resid K step G g) tr)) (graw R).
Proof.
  intros NF NG NH NR IR EG Hs1 Hfin HR.
  assert (Og : ok (fst g)) by (destruct NG as (O & _); rewrite EG in O; inversion O; assumption).
  assert (Zg : snd g <> c0 K) by (destruct NG as (_ & _ & O); rewrite EG in O; inversion O; assumption).
  assert (Hst : forall m k u, ok m -> k <> c0 K -> fst (step m k) = Some u ->
     ok (fst u) /\ m_mul S (fst u) (fst g) = m /\ snd u <> c0 K).
  { intros m k u Hm Hk. rewrite Hs1. apply (step_q_ok S ok sm K HS HK); assumption. }
  pose proof (tq_norm S ok sm K _ F G g Hst tr Hfin) as NQ.
  pose proof (fin_req S ok sm K HS HK _ F G NG g tr Hfin) as Hq.
  set (Q := tq step tr) in *.
  set (D := p_sub S K H Q). assert (ND : norm D) by (apply (p_sub_normal S ok sm K HS HK); assumption).
  assert (RD : req (graw D) (rsub K (graw H) (graw Q))) by apply (p_sub_req S ok sm K HS HK).
  set (rs := map (resid K step G g) tr) in *.
  assert (Z : req (graw rs) (radd (rmul (graw D) (graw G)) (graw R))).
  { rewrite RD. transitivity (rsub K (radd (rmul (graw H) (graw G)) (graw R)) (rmul (graw Q) (graw G))); [|ring].
    rewrite <- HR, Hq. ring. }
  destruct Hfin as (T1 & T2 & T3 & T4 & T5 & T6).
  assert (T1' : all_ok ok tr) by (eapply all_okv; eauto).
  assert (Rf : forall t, fst (resid K step G g t) = fst t).
  { intros t. unfold resid. destruct (fst (step _ _)); reflexivity. }
  assert (Rm : map fst rs = map fst tr).
  { unfold rs. rewrite map_map. apply map_ext. exact Rf. }
  assert (Okr : all_ok ok rs).
  { unfold rs, all_ok. rewrite Forall_map. eapply Forall_impl; [|exact T1']. intros t Ht. rewrite Rf. exact Ht. }
  assert (Dr : desc gt rs) by (unfold desc in *; rewrite Rm; exact T2).
  destruct D as [|d0 D'] eqn:ED.
  - split.
    + symmetry. apply (gnormal_req S ok sm K HS HK); auto. transitivity (radd (graw Q) (rsub K (graw H) (graw Q))); [ring|].
      rewrite <- RD. change (graw []) with (@r0 C). ring.
    + rewrite Z. change (graw []) with (@r0 C). ring.
  - exfalso. subst G.
    pose proof (lead_coef_prod S ok sm K HS HK D' gs d0 g ND NG) as L. set (m := m_mul S (fst d0) (fst g)) in *.
    assert (Od : ok (fst d0)) by (destruct ND as (O1 & _); apply Forall_cons_iff in O1; apply O1).
    assert (Okm : ok m) by (apply (ms_mul_ok S ok sm HS); assumption).
    assert (Okp : all_ok ok (products (m_mul S) K (d0 :: D') (g :: gs))).
    { apply Forall_forall. intros x Hx. unfold products in Hx. apply in_flat_map in Hx as (t & Ht & Hx).
      apply in_map_iff in Hx as (w & <- & Hw). cbn. destruct ND as (O1 & _). destruct NG as (O2 & _).
      unfold all_ok in O1, O2. rewrite Forall_forall in O1, O2. apply (ms_mul_ok S ok sm HS); auto. }
    assert (Okpr : all_ok ok (products (m_mul S) K (d0 :: D') (g :: gs) ++ R)).
    { unfold all_ok. apply Forall_app. split; [exact Okp|apply NR]. }
    rewrite <- (products_req S ok sm K HS HK) in Z by (apply ND || apply NG).
    unfold radd in Z. rewrite <- graw_app in Z.
    assert (Md : mdivides (sm (fst g)) (sm m)) by (intros v; unfold m; rewrite (exp_ms_mul S ok sm HS) by assumption; lia).
    pose proof (req_csum S ok sm K HS rs _ m Okr Okpr Okm Z) as E. rewrite (csum_app K HK), L, (irr_csum g m R NR IR Md) in E.
    assert (E' : csum K (m_eq S m) rs = cmul K (snd d0) (snd g)) by (rewrite E; ring). clear E. rename E' into E.
    assert (Zd : snd d0 <> c0 K) by (destruct ND as (_ & _ & N1); apply Forall_cons_iff in N1; apply N1).
    assert (Pz : cmul K (snd d0) (snd g) <> c0 K).
    { intros e. destruct (domain_integral K HD _ _ e); contradiction. }
    assert (Hin : In m (map fst tr)).
    { rewrite <- Rm. destruct (in_dec (fun a b => Bool.reflect_dec _ _ (iff_reflect _ _ (iff_sym (ms_eq S ok sm HS a b)))) m (map fst rs)) as [|Hn]; [assumption|exfalso].
      apply Pz. rewrite <- E. apply (csum_notin K). intros x Hx. destruct (m_eq S m x) eqn:E'; [|reflexivity].
      apply (ms_eq S ok sm HS) in E'. subst x. contradiction. }
    apply in_map_iff in Hin as ([m' k] & Em & Hin). cbn in Em. subst m'.
    assert (Hin' : In (resid K step (g :: gs) g (m, k)) rs) by (apply in_map; exact Hin).
    set (rk := resid K step (g :: gs) g (m, k)) in *.
    assert (Erk : rk = (m, snd rk)).
    { rewrite (surjective_pairing rk) at 1. f_equal. unfold rk. rewrite Rf. reflexivity. }
    rewrite Erk in Hin'. rewrite (csum_desc_in S ok sm K HS HK m (snd rk) rs Dr Okr Hin') in E.
    assert (Hdv : fst (m_div S m (fst g)) = true) by (apply (ms_div S ok sm HS m (fst g) Okm Og); exact Md).
    unfold rk, resid in E. rewrite Hs1 in E. unfold step_q in E. cbn [fst snd nth] in E.
    destruct (m_div S m (fst g)) as [dv m1]. cbn in Hdv. subst dv.
    destruct (is0_spec K HK (cquo K k (snd g))) as [E0|E0]; cbn [fst snd] in E.
    + rewrite E in E0. rewrite (quorem_exact K HQ) in E0 by assumption. contradiction.
    + assert (Ek : k = cmul K (snd d0 +c cquo K k (snd g)) (snd g)).
      { transitivity (csub K k (cmul K (cquo K k (snd g)) (snd g)) +c cmul K (cquo K k (snd g)) (snd g)); [ring|].
        rewrite E. ring. }
      pose proof (quorem_exact K HQ (snd d0 +c cquo K k (snd g)) (snd g) Zg) as X. rewrite <- Ek in X.
      apply Zd. transitivity (csub K (snd d0 +c cquo K k (snd g)) (cquo K k (snd g))); [ring|]. rewrite <- X. ring.
Qed.

Lemma rem_exact c d q : d <> c0 K -> c = cmul K q d -> crem K c d = c0 K /\ cquo K c d = q.
Proof.
  intros Nd ->. pose proof (quorem_eq K HQ (cmul K q d) d Nd) as E. rewrite (quorem_exact K HQ) in * by assumption. split; [|reflexivity].
  transitivity (csub K (cmul K q d +c crem K (cmul K q d) d) (cmul K q d)); [ring|]. rewrite <- E. ring.
Qed.

Theorem exact_heap_rem (F G H R : poly) g gs : norm F -> norm G -> norm H -> norm R -> irreducible_by sm g R -> G = g :: gs ->
  req (graw F) (radd (rmul (graw H) (graw G)) (graw R)) ->
  exists fuel0, forall fuel, fuel0 <= fuel -> heap_div gt (m_eq S) (m_mul S) K (step_qr (m_div S) K g) G fuel F = Ok (H, R).
Proof.
  intros NF NG NH NR IR EG HR.
  assert (Og : ok (fst g)) by (destruct NG as (O & _); rewrite EG in O; inversion O; assumption).
  assert (Zg : snd g <> c0 K) by (destruct NG as (_ & _ & O); rewrite EG in O; inversion O; assumption).
  set (step := step_qr (m_div S) K g).
  assert (Hs1 : forall m k, fst (step m k) = fst (step_q (m_div S) K g m k)) by (intros; apply step_qr_fst).
  assert (Hst : forall m k u, ok m -> k <> c0 K -> fst (step m k) = Some u ->
     ok (fst u) /\ m_mul S (fst u) (fst g) = m /\ snd u <> c0 K).
  { intros m k u Hm Hk. rewrite Hs1. apply (step_q_ok S ok sm K HS HK); assumption. }
  destruct (heap_div_run S ok sm K HS HK step F G NF NG g gs EG Hst) as (tr & fuel0 & Hfin & Hrun).
  destruct (exact_trace_rem step F G H R g gs tr NF NG NH NR IR EG Hs1 Hfin HR) as [E1 E2].
  exists fuel0. intros fuel Hf. rewrite (Hrun fuel Hf), E1. do 2 f_equal.
  destruct Hfin as (T1 & T2 & T3 & _). assert (T1' : all_ok ok tr) by (eapply all_okv; eauto). clear T1.
  set (rs := map (resid K step G g) tr) in *.
  assert (Rf : forall t, fst (resid K step G g t) = fst t) by (intros t; unfold resid; destruct (fst (step _ _)); reflexivity).
  assert (Rm : map fst rs = map fst tr) by (unfold rs; rewrite map_map; apply map_ext; exact Rf).
  assert (Okr : all_ok ok rs).
  { unfold rs, all_ok. rewrite Forall_map. eapply Forall_impl; [|exact T1']. intros t Ht. rewrite Rf. exact Ht. }
  assert (Dr : desc gt rs) by (unfold desc in *; rewrite Rm; exact T2).
  unfold all_ok in T1'. unfold nonzero in T3. rewrite Forall_forall in T1', T3.
  (* a divisible term leaves no residual *)
  assert (Es : forall t : M * C, In t tr -> snd (step (fst t) (snd t)) = (if fst (m_div S (fst t) (fst g)) then [] else [t]) /\
     snd (resid K step G g t) = (if fst (m_div S (fst t) (fst g)) then c0 K else snd t)).
  { intros [m k] Ht. pose proof (T1' _ Ht) as Om. pose proof (T3 _ Ht) as Nk. cbn [fst snd] in *.
    destruct (fst (m_div S m (fst g))) eqn:Ed.
    - assert (Md : mdivides (sm (fst g)) (sm m)) by (apply (ms_div S ok sm HS m (fst g) Om Og); exact Ed).
      pose proof (in_map (resid K step G g) tr _ Ht) as Hin. fold rs in Hin.
      assert (Er : resid K step G g (m, k) = (m, snd (resid K step G g (m, k)))).
      { rewrite (surjective_pairing (resid K step G g (m, k))) at 1. f_equal. apply Rf. }
      rewrite Er in Hin. pose proof (csum_desc_in S ok sm K HS HK m _ rs Dr Okr Hin) as Ec.
      rewrite (req_csum S ok sm K HS rs R m Okr (proj1 NR) Om E2), (irr_csum g m R NR IR Md) in Ec.
      split; [|symmetry; exact Ec]. clear Hin Er. unfold resid, step, step_qr in Ec |- *. cbn [fst snd] in *.
      destruct (m_div S m (fst g)) as [dv m1]. cbn [fst] in Ed. subst dv. cbn [fst snd] in *.
      destruct (is0_spec K HK (cquo K k (snd g))) as [E0|E0]; cbn [fst snd] in Ec; [congruence|].
      rewrite EG in Ec. cbn [nth] in Ec.
      destruct (rem_exact k (snd g) (cquo K k (snd g)) Zg) as [X _].
      { transitivity (csub K k (cmul K (cquo K k (snd g)) (snd g)) +c cmul K (cquo K k (snd g)) (snd g)); [ring|]. rewrite <- Ec. ring. }
      rewrite X. destruct (is0_spec K HK (c0 K)); [reflexivity|congruence].
    - unfold resid, step, step_qr. cbn [fst snd]. destruct (m_div S m (fst g)) as [dv m1]. cbn [fst] in Ed. subst dv. split; reflexivity. }
  assert (Etr : trem step tr = filter (fun t => negb (fst (m_div S (fst t) (fst g)))) tr).
  { unfold trem. clear - Es. revert Es. induction tr as [|t tr IH]; intros Es; [reflexivity|]. cbn [flat_map filter].
    rewrite (proj1 (Es t (or_introl eq_refl))), IH by (intros u Hu; apply Es; right; exact Hu).
    destruct (fst (m_div S (fst t) (fst g))); reflexivity. }
  assert (Nt : norm (trem step tr)).
  { rewrite Etr. split; [|split].
    + apply Forall_forall. intros t Ht. apply filter_In in Ht. apply T1', Ht.
    + clear - T2. induction tr as [|t tr IH]; [constructor|]. apply (desc_cons gt) in T2 as [D1 D2]. cbn [filter].
      destruct (negb _); [|apply IH, D1]. apply desc_cons. split; [apply IH, D1|].
      apply incl_Forall with (l1 := tr); [intros u Hu; apply filter_In in Hu; apply Hu|exact D2].
    + apply Forall_forall. intros t Ht. apply filter_In in Ht. apply T3, Ht. }
  apply (gnormal_req S ok sm K HS HK); auto. rewrite <- E2. symmetry.
  apply (csum_graw sm K). intros phi. rewrite Etr. unfold rs. clear - HK Es Rf. revert Es. induction tr as [|[m k] tr IH]; intros Es; [reflexivity|].
  cbn [map filter fst]. pose proof (proj2 (Es (m, k) (or_introl eq_refl))) as E. pose proof (Rf (m, k)) as E'. cbn [fst snd] in E, E'.
  destruct (resid K step G g (m, k)) as [a b]. cbn [fst snd] in E, E'. subst a b. specialize (IH (fun u Hu => Es u (or_intror Hu))).
  destruct (fst (m_div S m (fst g))); cbn [negb csum]; rewrite IH; destruct (phi m); ring.
Qed.

Theorem exact_single_rem (F H R : poly) g : norm F -> norm [g] -> norm H -> norm R -> irreducible_by sm g R ->
  req (graw F) (radd (rmul (graw H) (graw [g])) (graw R)) -> div1_qr (m_div S) K g F = (H, R).
Proof.
  intros NF NG NH NR IR HR.
  assert (Og : ok (fst g)) by (destruct NG as (O & _); inversion O; assumption).
  assert (Zg : snd g <> c0 K) by (destruct NG as (_ & _ & O); inversion O; assumption).
  set (HG := map (fun u => (m_mul S (fst u) (fst g), cmul K (snd u) (snd g))) H).
  assert (NHG : norm HG) by (apply (norm_single_mul S ok sm K HS HK HD); assumption).
  assert (EHG : req (graw HG) (rmul (graw H) (graw [g]))).
  { rewrite <- (products_req S ok sm K HS HK) by (apply NH || apply NG).
    replace (products (m_mul S) K H [g]) with HG; [reflexivity|]. unfold HG, products. clear. induction H as [|h H IH]; [reflexivity|]. cbn [flat_map map app] in *. rewrite IH. reflexivity. }
  set (dv := fun t : M * C => fst (m_div S (fst t) (fst g))).
  assert (Nfil : forall f, norm (filter f F)).
  { intros f. destruct NF as (O & Dd & NZ). split; [|split].
    + apply incl_Forall with (l1 := F); [intros t Ht; apply filter_In in Ht; apply Ht|exact O].
    + clear - Dd. induction F as [|t F IH]; [constructor|]. apply (desc_cons gt) in Dd as [D1 D2]. cbn [filter].
      destruct (f t); [|apply IH, D1]. apply desc_cons. split; [apply IH, D1|].
      apply incl_Forall with (l1 := F); [intros u Hu; apply filter_In in Hu; apply Hu|exact D2].
    + apply incl_Forall with (l1 := F); [intros t Ht; apply filter_In in Ht; apply Ht|exact NZ]. }
  assert (Ddv : forall t, ok (fst t) -> (dv t = true <-> mdivides (sm (fst g)) (sm (fst t)))).
  { intros t Ot. apply (ms_div S ok sm HS (fst t) (fst g) Ot Og). }
  (* the sum is a disjoint merge *)
  assert (Efil : filter (fun t => negb (dv t)) F = R /\ filter dv F = HG).
  { assert (Cm : forall m, ok m -> csum K (m_eq S m) F = csum K (m_eq S m) HG +c csum K (m_eq S m) R).
    { intros m Om. rewrite <- (csum_app K HK). apply (req_csum S ok sm K HS F (HG ++ R) m (proj1 NF)); [|exact Om|].
      - unfold all_ok. apply Forall_app. split; [apply NHG|apply NR].
      - rewrite graw_app. change (graw HG ++ graw R) with (radd (graw HG) (graw R)). rewrite EHG. exact HR. }
    assert (Cfil : forall (f : M * C -> bool) m, (forall a b, fst a = fst b -> f a = f b) ->
      csum K (m_eq S m) (filter f F) = if f (m, c0 K) then csum K (m_eq S m) F else c0 K).
    { intros f m Hf. clear - Hf HK HS. induction F as [|[a c] F IH]; [cbn; destruct (f _); reflexivity|]. cbn [filter csum].
      destruct (m_eq S m a) eqn:E.
      - apply (ms_eq S ok sm HS) in E. subst a. rewrite (Hf (m, c) (m, c0 K) eq_refl).
        destruct (f (m, c0 K)); [cbn [csum]; rewrite (proj2 (ms_eq S ok sm HS m m) eq_refl), IH; reflexivity|exact IH].
      - destruct (f (a, c)); [cbn [csum]; rewrite E; exact IH|exact IH]. }
    assert (Hdvf : forall a b : M * C, fst a = fst b -> dv a = dv b) by (intros a b E; unfold dv; rewrite E; reflexivity).
    assert (ZH : forall m, ok m -> dv (m, c0 K) = false -> csum K (m_eq S m) HG = c0 K).
    { intros m Om Ed. apply (csum_notin K). intros x Hx. destruct (m_eq S m x) eqn:Ee; [|reflexivity]. exfalso.
      apply (ms_eq S ok sm HS) in Ee. subst x. unfold HG in Hx. rewrite map_map in Hx. apply in_map_iff in Hx as (u & Eu & Hu). cbn [fst] in Eu.
      assert (X : dv (m, c0 K) = true); [|rewrite X in Ed; discriminate]. apply (Ddv (m, c0 K) Om). cbn [fst]. rewrite <- Eu.
      destruct NH as (OH & _). unfold all_ok in OH. rewrite Forall_forall in OH. intros v. rewrite (exp_ms_mul S ok sm HS) by auto. lia. }
    assert (ZR : forall m, ok m -> dv (m, c0 K) = true -> csum K (m_eq S m) R = c0 K).
    { intros m Om Ed. apply (irr_csum g m R NR IR). apply (Ddv (m, c0 K) Om). exact Ed. }
    split; apply (normal_unique ok gt (m_eq S) K (ms_order S ok sm HS) (ms_eq S ok sm HS) HK); auto; intros m Om; rewrite Cfil, (Cm m Om).
    - destruct (dv (m, c0 K)) eqn:Ed; cbn [negb]; [rewrite (ZR m Om Ed); reflexivity|rewrite (ZH m Om Ed); ring].
    - intros a b E. rewrite (Hdvf a b E). reflexivity.
    - destruct (dv (m, c0 K)) eqn:Ed; [rewrite (ZR m Om Ed); ring|rewrite (ZH m Om Ed); reflexivity].
    - exact Hdvf. }
  destruct Efil as [E1 E2].
  pose proof (divtest_single S ok sm K HS HK HD HQ (filter dv F) g (Nfil dv) NG) as X.
  unfold div1_qr in *. set (qf := fun i : M * C => let '(d, m) := m_div S (fst i) (fst g) in
       if d then (let k := cquo K (snd i) (snd g) in if is0 K k then [] else [(m, k)]) else []) in *.
  set (rf := fun i : M * C => let '(d, m) := m_div S (fst i) (fst g) in
       if d then (let k1 := crem K (snd i) (snd g) in if is0 K k1 then [] else [(m, k1)]) else [i]) in *.
  destruct X as [_ X]. destruct (X H NH) as [X1 X2]; [rewrite E2; exact EHG|]. clear X.
  assert (Eq : flat_map qf F = flat_map qf (filter dv F)).
  { clear. induction F as [|t F IH]; [reflexivity|]. cbn [flat_map filter]. destruct (dv t) eqn:E; [cbn [flat_map]; rewrite IH; reflexivity|].
    rewrite IH. unfold qf at 1. unfold dv in E. destruct (m_div S (fst t) (fst g)) as [d m]. cbn [fst] in E. subst d. reflexivity. }
  assert (Er : flat_map rf (filter dv F) = [] -> flat_map rf F = filter (fun t => negb (dv t)) F).
  { clear. induction F as [|t F IH]; [reflexivity|]. cbn [flat_map filter]. destruct (dv t) eqn:E; cbn [negb].
    - cbn [flat_map]. intros Z. apply app_eq_nil in Z as [Z1 Z2]. rewrite Z1, (IH Z2). reflexivity.
    - intros Z. rewrite (IH Z). unfold rf at 1. unfold dv in E. destruct (m_div S (fst t) (fst g)) as [d m]. cbn [fst] in E. subst d. reflexivity. }
  rewrite Eq, X1, (Er X2), E1. reflexivity.
Qed.

Theorem p_div_rem_exact (F H R : poly) g gs : norm F -> norm (g :: gs) -> norm H -> norm R -> irreducible_by sm g R ->
  req (graw F) (radd (rmul (graw H) (graw (g :: gs))) (graw R)) ->
  exists fuel0, forall fuel, fuel0 <= fuel -> pair_vec_div_rem gt (m_eq S) (m_mul S) (m_div S) K fuel (fun _ _ => Ok None) F (g :: gs) = Ok (H, R).
Proof.
  intros NF NG NH NR IR HR. unfold pair_vec_div_rem. destruct F as [|f F'].
  - assert (X : H = [] /\ R = []).
    { destruct (divrem_unique S ok sm K HS HK HD [] (g :: gs) H R [] [] g gs NG eq_refl) as [-> ->]; [split; auto| |auto].
      split; [apply norm_nil|]. split; [apply norm_nil|]. split; [constructor|]. reflexivity. }
    destruct X as [-> ->]. exists 0. reflexivity.
  - set (F := f :: F') in *. destruct gs as [|g2 gs].
    + exists 0. intros fuel _. rewrite (exact_single_rem F H R g NF NG NH NR IR HR). reflexivity.
    + cbn [obind]. apply (exact_heap_rem F (g :: g2 :: gs) H R g (g2 :: gs)); auto.
Qed.
End DivExact.
