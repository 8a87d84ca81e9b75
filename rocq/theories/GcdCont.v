(** * The content computed from a gcd (Gcd.v, [cont_with]). *)
From Coq Require Import Ring_theory Ring Setoid Morphisms.
From Verif Require Import Prelude Coef Spec SpecProofs SpecOps SpecOpsProofs GcdDom GcdPoly GcdMath OrderSpec PairVec PairVecProofs
  Mono MonoProofs MonoStruct MonoStructProofs Heap Poly PolyMulProofs Div PolyDivProofs PolyOps MonoOpsProofs PolyOpsGen PolyOpsProofs
  PolyOps2Proofs PolyOps3Proofs ZZ NumSpec ZZProofs Gcd GcdHom GcdLex.
Local Open Scope Z_scope.

Section Cont.
Context (vo : vorder) (Hvo : vorder_ok vo).
Notation K := Zc.
Let HD : domain_ok K := Zc_domain.
Let HK : ring_ok K := domain_ring K HD.
Let HG : cgcd_ok K := Z_cgcd.
Local Existing Instance HK.
Add Ring Rring : (rring K HK) (setoid (req_equiv K) (rring_ext K HK)).
Notation S := (lexS vo).
Notation gt := (lex_gt vo).
Notation norm := (normal (mok vo) gt K).
Notation graw := (graw sm).
Notation poly := (poly Z).
Notation cls := (cls vo).
Notation "a == b" := (req K a b) (at level 70).
Notation "a %| b" := (rdivides K a b) (at level 70).
Let M1 := lexS_ok vo Hvo.
Let HO := ms_order S (mok vo) sm M1.

(** no variable has serial 0 *)
Definition nz0 (p : poly) : Prop := vars_P (fun w => w <> 0%N) p.
Definition good (p : poly) : Prop := norm p /\ nz0 p.

Lemma nil_iff (p : poly) : norm p -> graw p == r0 -> p = [].
Proof. intros N E. destruct p as [|t p]; [reflexivity|]. exfalso. exact (proj1 (nz_iff vo Hvo K HD (t :: p) N) ltac:(discriminate) E). Qed.
Lemma gcd_nz0 (A B R : poly) : good A -> good B -> norm R -> is_gcd K (graw A) (graw B) (graw R) -> good R.
Proof.
  intros [NA VA] [NB VB] NR (G1 & G2 & U). split; [exact NR|].
  assert (Dec : forall w : N, {w <> 0%N} + {~ w <> 0%N}) by (intros w; destruct (N.eq_dec w 0); [right|left]; tauto).
  destruct A as [|t A]; [destruct B as [|u B]|].
  - assert (R = []) as ->; [|constructor]. apply nil_iff; [exact NR|].
    apply (rd_0_inv K HD), U; apply (rd_refl K HD).
  - apply (dvd_vars vo Hvo K HD HG R (u :: B)); auto. discriminate.
  - apply (dvd_vars vo Hvo K HD HG R (t :: A)); auto. discriminate.
Qed.

(** ** terms *)
Lemma same_group_spec v d m : mok vo m -> topm vo v m -> same_group v d m = (zexp m v =? d).
Proof.
  intros O T. unfold same_group. destruct (topm_shape vo Hvo v m O T) as [[[E|(w & e & l & E & Hw)] Z0]|(e & l & E & Ee & P)]; rewrite E.
  - rewrite Z0. apply Z.eqb_sym.
  - assert (w <> v) by (intros ->; rewrite (vo_irrefl vo Hvo) in Hw; discriminate).
    destruct (N.eqb_spec w v); [contradiction|]. cbn [negb andb orb]. rewrite Z0. apply Z.eqb_sym.
  - rewrite N.eqb_refl. cbn [negb andb]. rewrite orb_false_r, <- Ee. reflexivity.
Qed.
Lemma deg_first_spec v m : mok vo m -> topm vo v m -> deg_first v m = zexp m v.
Proof.
  intros O T. unfold deg_first. destruct (topm_shape vo Hvo v m O T) as [[[E|(w & e & l & E & Hw)] Z0]|(e & l & E & Ee & P)]; rewrite E.
  - auto.
  - assert (w <> v) by (intros ->; rewrite (vo_irrefl vo Hvo) in Hw; discriminate). destruct (N.eqb_spec w v); [contradiction|auto].
  - rewrite N.eqb_refl. exact Ee.
Qed.
Lemma strip_spec v m : mok vo m -> topm vo v m -> strip (zexp m v) m = change_var_deg vo m v 0.
Proof.
  intros O T. unfold strip. pose proof (zexp_nonneg vo m v O). destruct (Z.eqb_spec (zexp m v) 0) as [E|E].
  - rewrite (cvd_top0 vo Hvo v m O T E). apply (mok_eq vo); [|exact O|reflexivity].
    apply (mok_re_deg vo), (mok_dok vo), O.
  - apply (tl_top vo Hvo); [exact O|exact T|lia].
Qed.

Lemma cls_good v d (F : poly) : 0 <= d -> good F -> good (cls v d F).
Proof.
  intros Hd [N V]. assert (HSS : S = lexS vo \/ S = grlexS vo) by (left; reflexivity).
  split; [apply (cls_spec vo Hvo S HSS K HK v d F N Hd)|].
  apply Forall_forall. intros t Ht w Hw. unfold PolyOps2Proofs.cls in Ht. apply in_map_iff in Ht as (u & <- & Hu). cbn [fst] in Hw.
  apply filter_In in Hu as [Hu _]. destruct (nin vo K F u N Hu) as [O _].
  destruct (change_var_deg_spec vo Hvo (fst u) v 0 O) as [_ X]; [lia|]. rewrite (X w) in Hw.
  unfold nz0, vars_P in V. rewrite Forall_forall in V. apply (V u Hu w). destruct (N.eqb w v); lia.
Qed.
Lemma cls_app v d (F G : poly) : cls v d (F ++ G) = cls v d F ++ cls v d G.
Proof. unfold PolyOps2Proofs.cls. rewrite filter_app, map_app. reflexivity. Qed.

Section Go.
Variable v : var.
Variable F0 : poly.
Hypothesis GF : good F0.
Hypothesis TF : topp vo v F0.
Variable deg : Z.
Hypothesis Hdeg : Forall (fun t => zexp (fst t) v <= deg) F0.
Variable g : nat -> poly -> poly -> outcome poly.
Hypothesis Hg : forall k A B R, good A -> good B -> g k A B = Ok R -> norm R /\ is_gcd K (graw A) (graw B) (graw R).

Definition seen (td : Z) (c : poly) : Prop := good c /\ exists l, gcd_list K l (graw c) /\
  (forall a, In a l -> exists n, a == rcoeff K v n (graw F0)) /\
  (forall t, In t F0 -> td <= zexp (fst t) v -> exists a, In a l /\ a == rcoeff K v (Z.to_N (zexp (fst t) v)) (graw F0)).

Lemma close_group td c k c' : 0 <= td -> (td = deg \/ seen (td + 1) c) ->
  (if td =? deg then Ok (cls v td F0) else g k c (cls v td F0)) = Ok c' -> seen td c'.
Proof.
  intros Htd Hc E. assert (HSS : S = lexS vo \/ S = grlexS vo) by (left; reflexivity).
  destruct (cls_spec vo Hvo S HSS K HK v td F0 (proj1 GF) Htd) as [_ Ec].
  pose proof (cls_good v td F0 Htd GF) as Gc. rewrite Forall_forall in Hdeg.
  destruct (Z.eqb_spec td deg) as [e|n].
  - injection E as <-. split; [exact Gc|]. exists [graw (cls v td F0)]. split; [apply (gcd_list_one K HD)|]. split.
    + intros a [<-|[]]. eauto.
    + intros t Ht Lt. exists (graw (cls v td F0)). split; [left; reflexivity|]. rewrite Ec. specialize (Hdeg t Ht). cbv beta in Hdeg.
      replace (zexp (fst t) v) with td by lia. reflexivity.
  - destruct Hc as [Hc|(Gc' & l & L1 & L2 & L3)]; [contradiction|]. destruct (Hg k _ _ _ Gc' Gc E) as [NR GR].
    split; [apply (gcd_nz0 _ _ _ Gc' Gc NR GR)|]. exists (l ++ [graw (cls v td F0)]). split; [apply (gcd_list_snoc K HD l _ _ _ L1 GR)|]. split.
    + intros a Ha. apply in_app_or in Ha as [Ha|[<-|[]]]; eauto.
    + intros t Ht Lt. destruct (Z.eq_dec (zexp (fst t) v) td) as [->|ne].
      * exists (graw (cls v td F0)). split; [apply in_or_app; right; left; reflexivity|exact Ec].
      * destruct (L3 t Ht) as (a & Ha & Ea); [lia|]. exists a. split; [apply in_or_app; auto|exact Ea].
Qed.

Lemma cont_go_ok F : forall Pre td c c', F0 = Pre ++ F -> 0 <= td -> Forall (fun t => td <= zexp (fst t) v) Pre ->
  Forall (fun t => zexp (fst t) v <= td) F -> (td = deg \/ seen (td + 1) c) ->
  cont_go g v deg td (cls v td Pre) c F = Ok c' -> seen 0 c'.
Proof.
  induction F as [|t F IH]; intros Pre td c c' E0 Htd LP LF Hc E; cbn [cont_go] in E.
  - rewrite app_nil_r in E0. rewrite <- E0 in *. pose proof (close_group td c 0 c' Htd Hc E) as (A1 & l & L1 & L2 & L3).
    split; [exact A1|]. exists l. split; [exact L1|]. split; [exact L2|]. intros t Ht _.
    apply L3; [exact Ht|]. rewrite Forall_forall in LP. apply (LP t Ht).
  - assert (It : In t F0) by (rewrite E0; apply in_or_app; right; left; reflexivity).
    destruct (nin vo K F0 t (proj1 GF) It) as [Ot _]. pose proof TF as TF'. unfold topp in TF'. rewrite Forall_forall in TF'. specialize (TF' t It).
    rewrite (same_group_spec v td _ Ot TF') in E. assert (E0' : F0 = (Pre ++ [t]) ++ F) by (rewrite <- app_assoc; exact E0).
    destruct (Z.eqb_spec (zexp (fst t) v) td) as [e|n].
    + rewrite <- e in E. rewrite (strip_spec v _ Ot TF') in E. rewrite e in E.
      apply (IH (Pre ++ [t]) td c c' E0' Htd); [|apply (Forall_inv_tail LF)|exact Hc|].
      * apply Forall_app. split; [exact LP|]. constructor; [lia|constructor].
      * rewrite cls_app, cls_cons. destruct (Z.eqb_spec (zexp (fst t) v) td); [exact E|contradiction].
    + rewrite (deg_first_spec v _ Ot TF') in E. rewrite (strip_spec v _ Ot TF') in E. pose proof (Forall_inv LF) as Lt. cbv beta in Lt.
      assert (Lt' : zexp (fst t) v < td) by lia. pose proof (zexp_nonneg vo (fst t) v Ot) as Pt.
      assert (LFt : Forall (fun u => zexp (fst u) v <= zexp (fst t) v) F).
      { pose proof (proj1 GF) as NF. rewrite E0 in NF. apply (norm_app S (mok vo) K) in NF as (_ & NF & _).
        pose proof TF as TF2. rewrite E0 in TF2. unfold topp in TF2. apply Forall_app in TF2 as [_ TF2]. apply (deg_tail vo Hvo K v t F NF TF2). }
      assert (Ecls : cls v td Pre = cls v td F0).
      { rewrite E0, cls_app. rewrite (cls_none vo v td (t :: F)); [rewrite app_nil_r; reflexivity|].
        constructor; [lia|]. eapply Forall_impl; [|exact LFt]. cbv beta. intros u Hu. lia. }
      rewrite Ecls in E. destruct (if td =? deg then _ else _) as [c1| | |] eqn:Ec; try discriminate. cbn [obind] in E.
      pose proof (close_group td c _ c1 Htd Hc Ec) as (A1 & l & L1 & L2 & L3).
      apply (IH (Pre ++ [t]) (zexp (fst t) v) c1 c' E0' Pt).
      * apply Forall_app. split; [|constructor; [lia|constructor]]. eapply Forall_impl; [|exact LP]. cbv beta. intros u Hu. lia.
      * exact LFt.
      * right. split; [exact A1|]. exists l. split; [exact L1|]. split; [exact L2|]. intros u Hu Lu. apply L3; [exact Hu|].
        rewrite E0' in Hu. apply in_app_or in Hu as [Hu|Hu].
        -- apply in_app_or in Hu as [Hu|[<-|[]]]; [rewrite Forall_forall in LP; apply (LP u Hu)|lia].
        -- rewrite Forall_forall in LFt. specialize (LFt u Hu). cbv beta in LFt. lia.
      * rewrite cls_app, cls_cons, (cls_none vo v (zexp (fst t) v) Pre).
        -- rewrite Z.eqb_refl. exact E.
        -- eapply Forall_impl; [|exact LP]. cbv beta. intros u Hu. lia.
Qed.
End Go.

Theorem cont_with_ok g (F c : poly) : good F ->
  (forall k A B R, good A -> good B -> g k A B = Ok R -> norm R /\ is_gcd K (graw A) (graw B) (graw R)) ->
  cont_with g F = Ok c -> good c /\ (F = [] -> c = []) /\ (F <> [] -> is_cont K (first_var F) (graw F) (graw c)).
Proof.
  intros GF Hg E. unfold cont_with in E. destruct F as [|t r].
  - cbn in E. injection E as <-. split; [exact GF|]. split; [reflexivity|]. intros X; contradiction X; reflexivity.
  - set (F := t :: r) in *. destruct (nin vo K F t (proj1 GF) (or_introl eq_refl)) as [Ot _].
    assert (T : topp vo (first_var F) F /\ first_deg F = zexp (fst t) (first_var F)).
    { destruct (md (fst t)) as [|j l] eqn:Em.
      - destruct (first_const vo K r t (proj1 GF) Em) as [_ ->]. split.
        + constructor; [|constructor]. unfold topm. rewrite Em. constructor.
        + unfold F. cbn [first_deg]. unfold mfirst_deg, zexp. rewrite Em. reflexivity.
      - assert (Nx : first_var F <> 0%N).
        { unfold F. cbn [first_var]. unfold mfirst_var. rewrite Em. destruct j as [w e].
          pose proof (Forall_inv (proj2 GF) w) as X. apply X. unfold zexp. rewrite Em.
          pose proof (mok_dok vo _ Ot) as Od. rewrite Em in Od. pose proof Od as Od'. apply dok_cons in Od' as (Pe & _).
          rewrite (ex_in vo Hvo _ w e Od (or_introl eq_refl)). cbn [snd] in Pe. intros E1. rewrite E1 in Pe. discriminate Pe. }
        destruct (first_spec vo Hvo K HD F (first_var F) (proj1 GF) eq_refl Nx) as (t' & r' & Ef & T & D & _). injection Ef as <- _. auto. }
    destruct T as [T D]. destruct (topp_head vo Hvo K (first_var F) t r (proj1 GF) (Forall_inv T)) as [_ L]. fold F in L.
    rewrite <- D in L.
    assert (Sn : seen (first_var F) F 0 c).
    { apply (cont_go_ok (first_var F) F GF T (first_deg F) L g Hg F [] (first_deg F) [] c eq_refl).
      - rewrite D. apply (zexp_nonneg vo _ _ Ot).
      - constructor.
      - exact L.
      - left. reflexivity.
      - exact E. }
    destruct Sn as (Gc & l & L1 & L2 & L3). split; [exact Gc|]. split; [intros X; discriminate X|]. intros _.
    apply (cont_of_list K HD HG _ _ l); [apply (nz_iff vo Hvo K HD F (proj1 GF)); discriminate|exact L1|exact L2|].
    intros n. destruct (rzero_dec K HD (rcoeff K (first_var F) n (graw F))) as [X|X]; [auto|]. right.
    apply (not_zero_coef K HD) in X as [m Hm]. rewrite (coef_rcoeff K HK) in Hm.
    destruct (N.eqb (exp m (first_var F)) 0); [|congruence].
    apply (supp_in vo Hvo K HD F _ (proj1 GF)) in Hm as (u & Hu & Eu). specialize (Eu (first_var F)). cbn [exp] in Eu.
    rewrite N.eqb_refl, exp_mdrop, N.eqb_refl, N.add_0_r in Eu. rewrite Eu. apply L3; [exact Hu|].
    apply (zexp_nonneg vo). apply (nin vo K F u (proj1 GF) Hu).
Qed.
End Cont.
