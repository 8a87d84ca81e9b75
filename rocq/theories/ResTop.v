(** * resultant(O,F,G,v) (resultant.hh 34-255) computes the Sylvester determinant; when it vanishes. *)
From Coq Require Import Ring_theory Ring Setoid Morphisms Lia.
From Verif Require Import Prelude Coef Spec SpecProofs SpecOps SpecOpsProofs OrderSpec PairVec PairVecProofs Mono MonoProofs
  MonoStruct MonoStructProofs Heap Poly PolyMulProofs Div PolyDivProofs PolyOps MonoOpsProofs PolyOpsGen PolyOpsProofs PolyOps2Proofs
  Prem PremProofs GcdDom GcdPoly GcdMath GcdHom GcdRep GcdLex ResSpec ResDet ResMath ResChain ResSyl ResBez Resultant ResProofs ResInit ResBezProofs.
Local Open Scope Z_scope.

(** ** Mathematics of the 0-th subresultant *)
Section RT.
Context {C : Type} (K : coefs C) (HD : domain_ok K) (HG : cgcd_ok K) (v : var).
Let HK : ring_ok K := domain_ring K HD.
Local Existing Instance HK.
Add Ring Kring : (ring_laws K HK).
Add Ring Rring : (rring K HK) (setoid (req_equiv K) (rring_ext K HK)).
Notation R := (rpoly C).
Notation rmul := (rmul K). Notation rpow := (rpow K).
Local Infix "==" := (req K) (at level 70).
Notation r0 := (@Spec.r0 C). Notation r1 := (Spec.r1 K).
Notation cf := (cf K v). Notation dl := (dl K v). Notation m1 := (ropp K r1). Notation X := (X K v).
Notation free := (vfree K v).
Notation subres := (subres K v).
Notation DP := (DP K v). Notation DPn := (DPn K v). Notation shifts := (shifts K v).
Local Existing Instance rpow_proper.
Local Existing Instance cf_proper.
Local Existing Instance dl_proper.

Lemma DP_powers n P : (1 <= n)%nat -> free P -> DP 0 (shifts n P) == rpow P n.
Proof.
  intros Hn Fr. pose proof (DP_peels K HD v 0 1 (n - 1) P 0 [] (proj2 (dl_1_free K v P) Fr) eq_refl (Forall_nil _)) as E. cbn [length Nat.add] in E.
  specialize (E ltac:(lia)). replace (n - 1 + 1)%nat with n in E by lia. rewrite !app_nil_r in E. rewrite E. cbn [ResSpec.shifts]. rewrite (DP_one K HD).
  change (rmono K [(v, N.of_nat 0)]) with (X 0). rewrite (X_0 K HD), (cf_0_free K HD v P Fr). replace n with (1 + (n - 1))%nat at 2 by lia. cbn [Nat.add Spec.rpow]. ring.
Qed.
Lemma subres_0l l F G : (1 <= l)%nat -> free F -> subres 0 l F G 0 == rpow F l.
Proof. intros Hl Fr. unfold ResChain.subres. rewrite !Nat.sub_0_r. cbn [ResSpec.shifts]. rewrite app_nil_r. apply DP_powers; assumption. Qed.
Lemma subres_0r m F G : (1 <= m)%nat -> free G -> subres m 0 F G 0 == rpow G m.
Proof. intros Hl Fr. unfold ResChain.subres. rewrite !Nat.sub_0_r. cbn [ResSpec.shifts app]. apply DP_powers; assumption. Qed.
Lemma subres_swap m l F G : subres m l F G 0 == rmul (rpow m1 (l * m)) (subres l m G F 0).
Proof.
  unfold ResChain.subres. rewrite !Nat.sub_0_r.
  assert (L : forall a b (P Q : R), length (shifts a P ++ shifts b Q) = (a + b)%nat) by (intros; rewrite app_length, !(shifts_length K v); lia).
  rewrite (DP_len K v 0 (l + m)%nat _ (L _ _ _ _)). rewrite (DP_len K v 0 (l + m)%nat (shifts m G ++ shifts l F)) by (rewrite L; lia).
  pose proof (al_block K HD v _ (DP_al K HD v 0 (l + m)) (shifts l F) [] (shifts m G) []) as E. rewrite !app_nil_r, !(shifts_length K v) in E. exact E.
Qed.
Lemma subres_eq m l F G F' G' : F == F' -> G == G' -> subres m l F G 0 == subres m l F' G' 0.
Proof. intros E1 E2. unfold ResChain.subres. apply (DP_eq K HD). apply Forall2_app; apply (shifts_eq K HD); assumption. Qed.

(** one Euclidean step *)
Lemma subres_euclid m l r e F G Q Cc : (r <= m)%nat -> (1 <= l)%nat -> dl (Datatypes.S l) G -> dl (Datatypes.S m) F -> dl (Datatypes.S r) Cc -> (r < l)%nat -> dl (m - l + 1) Q -> (l <= m)%nat ->
  rmul (rpow (cf l G) e) F == radd (rmul Q G) Cc ->
  rmul (rpow (cf l G) (e * l)) (subres m l F G 0) == rmul (rpow m1 (l * m)) (rmul (rpow (cf l G) (m - r)) (subres l r G Cc 0)).
Proof.
  intros Hrm Hl HGl HF HCc Hr HQ Hlm E. unfold ResChain.subres. rewrite !Nat.sub_0_r.
  assert (L : forall a b (P Q : R), length (shifts a P ++ shifts b Q) = (a + b)%nat) by (intros; rewrite app_length, !(shifts_length K v); lia).
  rewrite (DP_len K v 0 (l + m)%nat _ (L _ _ _ _)). set (g := cf l G) in *.
  pose proof (DP_al K HD v 0 (l + m)) as AL.
  pose proof (al_scale_all K HD v _ AL (rpow g e) (shifts l F) (rpow_free_ K HD v g e (cf_free K HD v l G)) [] (shifts m G)) as E1.
  rewrite (shifts_length K v) in E1. cbn [app] in E1. rewrite <- (rpow_rpow K HD), <- E1.
  assert (E2 : DPn 0 (l + m) (map (rmul (rpow g e)) (shifts l F) ++ shifts m G) == DPn 0 (l + m) (shifts l (radd (rmul Q G) Cc) ++ shifts m G)).
  { apply (al_proper K v _ AL). apply Forall2_app; [|apply (rows_refl K)]. generalize l as k. clear -E HK HD. induction k as [|k IH]; cbn [ResSpec.shifts map]; constructor; [rewrite <- E; ring|exact IH]. }
  rewrite E2. pose proof (DP_reduce K HD v 0 (l + m) l [] (m - l + 1) Q G Cc m [] HQ ltac:(lia)) as E3. rewrite !app_nil_r in E3. cbn [app] in E3. rewrite E3.
  pose proof (al_block K HD v _ AL (shifts l Cc) [] (shifts m G) []) as E4. rewrite !app_nil_r, !(shifts_length K v) in E4. cbn [app] in E4. rewrite E4.
  rewrite <- (DP_len K v 0 (l + m)%nat (shifts m G ++ shifts l Cc)) by (rewrite L; lia).
  pose proof (DP_peels K HD v 0 r (m - r) G l (shifts l Cc) HGl) as E5. rewrite (shifts_length K v) in E5. specialize (E5 ltac:(lia)).
  replace (m - r + r)%nat with m in E5 by lia. rewrite E5; [reflexivity| |lia]. apply (shifts_dl K HD v l Cc (Datatypes.S r)); [exact HCc|lia].
Qed.

Notation "a %| b" := (rdivides K a b) (at level 70).
Lemma ideal_dvd F G P q : P %| F -> P %| G -> ideal K [F; G] q -> P %| q.
Proof.
  intros DF DG. induction 1 as [g I| |p q _ IHp _ IHq|p q _ IH|p q Epq _ IH].
  - destruct I as [<-|[<-|[]]]; assumption.
  - apply (rd_0 K HD).
  - apply (rd_add K HD); assumption.
  - apply (rd_mull K HD), IH.
  - destruct IH as [w Ew]. exists w. rewrite <- Epq. exact Ew.
Qed.
(** a common factor of positive degree makes it vanish *)
Lemma subres_common m l F G P d : (1 <= m + l)%nat -> dl (Datatypes.S m) F -> dl (Datatypes.S l) G -> P %| F -> P %| G -> deg_is K P v d -> (0 < d)%N -> subres m l F G 0 == r0.
Proof.
  intros H HF HGl DF DG DP0 Hd. destruct (rzero_dec K HD (subres m l F G 0)) as [Z0|Nz]; [exact Z0|]. exfalso.
  assert (Dv : P %| subres m l F G 0).
  { apply (ideal_dvd F G P _ DF DG), (subres_ideal K HD v m l F G H). }
  destruct Dv as [w Ew]. assert (Np : ~ P == r0) by (intros E; apply Nz; rewrite Ew, E; ring). assert (Nw : ~ w == r0) by (intros E; apply Nz; rewrite Ew, E; ring).
  destruct (deg_exists K HD w v) as [dw Dw]. pose proof (deg_is_mul K HD HG w P v dw d Nw Np Dw DP0) as D1.
  pose proof (subres_free K HD v m l F G H HF HGl) as Fr.
  assert (D2 : deg_is K (subres m l F G 0) v 0).
  { split; [|left; reflexivity]. intros x Hx. rewrite (Fr x Hx). lia. }
  rewrite Ew in D2. pose proof (deg_is_unique K _ _ _ _ D1 D2). lia.
Qed.
Lemma cprod_nz p q : ~ p == r0 -> ~ q == r0 -> ~ rmul p q == r0.
Proof. intros H1 H2 E. apply (rintegral K HD HG) in E as [E|E]; contradiction. Qed.
Lemma sub_cancel_nz s p : ~ s == r0 -> rmul s p == r0 -> p == r0.
Proof. intros H E. apply (rintegral K HD HG) in E as [E|E]; [contradiction|exact E]. Qed.
Definition common (F G : R) : Prop := exists P d, is_prim K v P /\ P %| F /\ P %| G /\ deg_is K P v d /\ (0 < d)%N.
Lemma common_sym F G : common F G -> common G F. Proof. intros (P & d & A & B & D & E & H). exists P, d. auto. Qed.
Lemma dl_drop n p q : dl (Datatypes.S n) p -> dl (Datatypes.S n) q -> radd (cf n p) (cf n q) == r0 -> dl n (radd p q).
Proof.
  intros Hp Hq E. pose proof (dl_add K HD v _ _ _ Hp Hq) as H. assert (E' : cf n (radd p q) == r0).
  { rewrite <- E. unfold ResMath.cf. rewrite (rcoeff_add K). reflexivity. }
  intros m Hm. specialize (H m Hm). destruct (N.eq_dec (exp m v) (N.of_nat n)) as [Em|Em]; [|lia]. exfalso. apply (cf_nz K HD v n _ m Hm Em E').
Qed.
Lemma pseudo_exists F G m l : dl (Datatypes.S m) F -> dl (Datatypes.S l) G -> ~ cf l G == r0 -> (l <= m)%nat ->
  exists Q Cc, dl (m - l + 1) Q /\ dl l Cc /\ rmul (rpow (cf l G) (m - l + 1)) F == radd (rmul Q G) Cc.
Proof.
  intros HF HGl Ng L. remember (m - l)%nat as k eqn:Ek. revert m F HF L Ek. induction k as [|k IH]; intros m F HF L Ek.
  - assert (m = l) by lia. subst m. exists (cf l F), (radd (rmul (cf l G) F) (ropp K (rmul (cf l F) G))). split; [apply (dl_1_free K v), (cf_free K HD)|]. split.
    + apply dl_drop; [apply (dl_scale K HD); [apply (cf_free K HD)|exact HF]|apply (dl_opp K HD), (dl_scale K HD); [apply (cf_free K HD)|exact HGl]|].
      rewrite (cf_scale K HD) by apply (cf_free K HD). 
      assert (E : ropp K (rmul (cf l F) G) == rmul (ropp K (cf l F)) G) by ring. rewrite E, (cf_scale K HD) by (apply (vfree_opp K HD), (cf_free K HD)). ring.
    + cbn [Nat.add Spec.rpow]. ring.
  - set (F1 := radd (rmul (cf l G) F) (ropp K (rmul (rmul (cf m F) (X (m - l))) G))).
    assert (HF1 : dl (Datatypes.S (m - 1)) F1).
    { replace (Datatypes.S (m - 1)) with m by lia. assert (E : F1 == radd (rmul (cf l G) F) (rmul (ropp K (cf m F)) (rmul (X (m - l)) G))) by (unfold F1; ring). rewrite E.
      apply dl_drop.
      - apply (dl_scale K HD); [apply (cf_free K HD)|exact HF].
      - apply (dl_scale K HD); [apply (vfree_opp K HD), (cf_free K HD)|]. replace (Datatypes.S m) with (m - l + Datatypes.S l)%nat by lia. apply (dl_X K HD), HGl.
      - rewrite (cf_scale K HD) by apply (cf_free K HD). rewrite (cf_scale K HD) by (apply (vfree_opp K HD), (cf_free K HD)).
        replace (cf m (rmul (X (m - l)) G)) with (cf (m - l + l) (rmul (X (m - l)) G)) by (f_equal; lia). rewrite (cf_X K HD). ring. }
    destruct (IH (m - 1)%nat F1 HF1 ltac:(lia) ltac:(lia)) as (Q & Cc & HQ & HCc & E).
    exists (radd Q (rmul (rpow (cf l G) (k + 1)) (rmul (cf m F) (X (m - l))))), Cc. split; [|split; [exact HCc|]].
    + apply (dl_add K HD); [apply (dl_weak K v (k + 1)); [lia|exact HQ]|]. apply (dl_scale K HD); [apply (rpow_free_ K HD), (cf_free K HD)|].
      apply (dl_scale K HD); [apply (cf_free K HD)|]. assert (E1 : X (m - l) == rmul (X (m - l)) r1) by ring. rewrite E1. replace (Datatypes.S k + 1)%nat with (m - l + 1)%nat by lia. apply (dl_X K HD).
      apply (dl_1_free K v), (vfree_const K).
    + replace (Datatypes.S k + 1)%nat with (Datatypes.S (k + 1)) by lia. cbn [Spec.rpow].
      transitivity (radd (rmul (rpow (cf l G) (k + 1)) F1) (rmul (rmul (rpow (cf l G) (k + 1)) (rmul (cf m F) (X (m - l)))) G)); [unfold F1; ring|]. rewrite E. ring.
Qed.
Theorem subres_zero_common : forall k m l F G, (m + l <= k)%nat -> (1 <= m + l)%nat -> dl (Datatypes.S m) F -> dl (Datatypes.S l) G -> ~ cf m F == r0 -> ~ cf l G == r0 ->
  subres m l F G 0 == r0 -> common F G.
Proof.
  induction k as [|k IH]; intros m l F G Hk H1 HF HGl Nf Ng E0; [lia|].
  assert (Main : forall m l F G, (m + l <= Datatypes.S k)%nat -> (l <= m)%nat -> (1 <= m)%nat -> dl (Datatypes.S m) F -> dl (Datatypes.S l) G -> ~ cf m F == r0 -> ~ cf l G == r0 -> subres m l F G 0 == r0 -> common F G).
  { clear m l F G Hk H1 HF HGl Nf Ng E0. intros m l F G Hk Hlm Hm HF HGl Nf Ng E0.
    destruct (Nat.eq_dec l 0) as [->|Hl].
    - exfalso. apply (dl_1_free K v) in HGl. rewrite (subres_0r m F G Hm HGl) in E0. rewrite (cf_0_free K HD v G HGl) in Ng. revert E0. apply (rpow_nz_ K HD HG), Ng.
    - destruct (pseudo_exists F G m l HF HGl Ng Hlm) as (Q & Cc & HQ & HCc & E). set (e := (m - l + 1)%nat) in *. set (g := cf l G) in *.
      assert (Ngp : forall n, ~ rpow g n == r0) by (intros n; apply (rpow_nz_ K HD HG), Ng). assert (Fg : forall n, free (rpow g n)) by (intros n; apply (rpow_free_ K HD), (cf_free K HD)).
      assert (Lift : forall P, is_prim K v P -> P %| G -> P %| Cc -> P %| F).
      { intros P Pp DG DC. apply (prim_dvd K HD HG v (rpow g e) F P (Fg e) (Ngp e) Pp). 
        assert (X0 : P %| radd (rmul Q G) Cc) by (apply (rd_add K HD); [apply (rd_mull K HD), DG|exact DC]). destruct X0 as [w Ew]. exists w. rewrite <- Ew. exact E. }
      destruct (rzero_dec K HD Cc) as [Z0|Nz].
      + (* G divides g^e F *)
        assert (Gz : ~ G == r0) by (intros X0; apply Ng; unfold g; rewrite X0; apply (cf_dl K HD v 0); [apply dl_0|lia]).
        destruct (cont_exists K HD HG v G) as [c Hc]. pose proof Hc as (Fc & [P EP] & _). pose proof (pp_prim K HD HG v G c P Gz Hc EP) as Pp.
        assert (Nc : ~ c == r0) by (intros X0; apply Gz; rewrite EP, X0; ring). assert (NP : ~ P == r0) by (intros X0; apply Gz; rewrite EP, X0; ring).
        assert (DG : deg_is K G v (N.of_nat l)) by (apply (cf_deg K HD v l G HGl Ng)).
        destruct (deg_exists K HD P v) as [d Dd]. assert (Dc : deg_is K c v 0) by (split; [intros x Hx; rewrite (Fc x Hx); lia|left; reflexivity]).
        pose proof (deg_is_mul K HD HG P c v d 0 NP Nc Dd Dc) as D1. assert (D1' : deg_is K G v (d + 0)) by (rewrite EP; exact D1). pose proof (deg_is_unique K _ _ _ _ DG D1').
        assert (PG : P %| G) by (exists c; rewrite EP; ring).
        exists P, d. split; [exact Pp|]. split; [apply Lift; [exact Pp|exact PG|exists r0; rewrite Z0; ring]|]. split; [exact PG|]. split; [exact Dd|lia].
      + destruct (deg_exists K HD Cc v) as [dr Dr]. set (r := N.to_nat dr). assert (Edr : dr = N.of_nat r) by (unfold r; lia). rewrite Edr in Dr.
        assert (HCr : dl (Datatypes.S r) Cc) by (apply (deg_dl K v), Dr).
        assert (Lr : (r < l)%nat).
        { destruct Dr as [_ [Dr|(x & Hx & Ex)]]; [lia|]. specialize (HCc x Hx). lia. }
        assert (Nr : ~ cf r Cc == r0).
        { destruct Dr as [Dle [Dr|(x & Hx & Ex)]].
          - destruct (not_zero_coef K HD _ Nz) as [x Hx]. apply (cf_nz K HD v r Cc x Hx). specialize (Dle x Hx). lia.
          - apply (cf_nz K HD v r Cc x Hx). lia. }
        pose proof (subres_euclid m l r e F G Q Cc ltac:(lia) ltac:(lia) HGl HF HCr Lr HQ Hlm E) as EE. fold g in EE. rewrite E0 in EE.
        assert (E1 : subres l r G Cc 0 == r0).
        { apply (sub_cancel_nz (rpow g (m - r)) _ (Ngp _)). apply (sub_cancel_nz (rpow m1 (l * m))).
          - apply (rpow_nz_ K HD HG). intros X0. apply Ng. transitivity (rmul (rmul m1 m1) g); [ring|]. rewrite X0. ring.
          - rewrite <- EE. ring. }
        destruct (IH l r G Cc ltac:(lia) ltac:(lia) HGl HCr Ng Nr E1) as (P & d & Pp & PG & PC & Dd & Pos).
        exists P, d. split; [exact Pp|]. split; [apply Lift; assumption|]. auto. }
  destruct (Nat.le_gt_cases l m) as [L|L]; [apply (Main m l F G); try assumption; lia|].
  apply common_sym, (Main l m G F); try assumption; try lia.
  rewrite (subres_swap l m G F), E0. ring.
Qed.
End RT.

(** ** The model *)
Section RTM.
Context {C : Type} (K : coefs C) (HD : domain_ok K) (HG : cgcd_ok K) (HQ : quorem_ok K) (v : var).
Context (compress dcompress : poly C -> poly C -> outcome (option (poly C))).
Let HK : ring_ok K := domain_ring K HD.
Local Existing Instance HK.
Add Ring Kring2 : (ring_laws K HK).
Add Ring Rring2 : (rring K HK) (setoid (req_equiv K) (rring_ext K HK)).
Notation vo := (vuniv v).
Let Hvo : vorder_ok vo := vuniv_ok v.
Notation S := (lexS vo).
Let HS : monos_ok S (mok vo) sm := lexS_ok vo Hvo.
Notation norm := (normal (mok vo) (lex_gt vo) K).
Notation graw := (graw sm).
Notation poly := (poly C).
Notation rmul := (rmul K). Notation rpow := (rpow K).
Local Infix "==" := (req K) (at level 70).
Notation r0 := (@Spec.r0 C). Notation r1 := (Spec.r1 K).
Notation m1 := (ropp K r1).
Notation dg := (dg v).
Context (HC : comp_all S (mok vo) sm K compress).
Context (HDC : forall F G, norm F -> norm G -> dcomp_good S (mok vo) sm K dcompress F G).
Local Existing Instance rpow_proper.
Notation subres := (subres K v).

Lemma ge_ok F G : norm F -> norm G -> (1 <= dg G)%nat -> (dg G <= dg F)%nat -> Z.of_nat (dg F) < 2 ^ 63 ->
  exists O, norm O /\ graw O == subres (dg F) (dg G) (graw F) (graw G) 0 /\
    exists n0, forall fuel, (n0 <= fuel)%nat -> resultant_ge K v compress dcompress fuel F G (Z.of_nat (dg F)) (Z.of_nat (dg G)) = Ok O.
Proof.
  intros NF NG Hl Hlm Hb. unfold resultant_ge. destruct (_ >? 3).
  - assert (Gne : G <> []) by (intros E; rewrite E in Hl; vm_compute in Hl; lia).
    destruct (bezout_ok K HD HG v compress HC F G NF NG Hl Hlm Gne) as (D & ED & ND & RD). exists D. split; [exact ND|]. split; [exact RD|]. exists 0%nat. intros fuel _. exact ED.
  - destruct (Z.ltb_spec (Z.of_nat (dg G)) (Z.of_nat (dg F))) as [L|L].
    + apply (init_lt_ok K HD HG HQ v compress dcompress HC HDC F G NF NG Hl Hb). lia.
    + apply (init_eq_ok K HD HG HQ v compress dcompress HC HDC F G NF NG Hl Hb). lia.
Qed.
Lemma dg_free F : norm F -> dg F = 0%nat -> vfree K v (graw F).
Proof. intros N E. apply (dl_1_free K v). rewrite <- E. apply (dg_dl K HD v F N). Qed.
Theorem up_ok F G : norm F -> norm G -> F <> [] -> G <> [] -> Z.of_nat (dg F) < 2 ^ 63 -> Z.of_nat (dg G) < 2 ^ 63 ->
  exists O, norm O /\ graw O == determinant K (sylvester K v (dg F) (dg G) (graw F) (graw G)) /\
    exists n0, forall fuel, (n0 <= fuel)%nat -> resultant_up K v compress dcompress fuel F G = Ok O.
Proof.
  intros NF NG Fne Gne HF HGb. unfold resultant_up. rewrite (up_eq K HD v F NF), (up_eq K HD v G NG).
  assert (Nn : forall (p : poly) (A : Type) (a b : A), p <> [] -> match p with [] => a | _ :: _ => b end = b) by (intros [|? ?]; congruence).
  assert (Sh : forall x : outcome poly, match F, G with [], _ | _, [] => Ok [] | _, _ => x end = x) by (intros x; destruct F; [congruence|]; destruct G; [congruence|reflexivity]).
  pose proof (dg_dl K HD v F NF) as DF. pose proof (dg_dl K HD v G NG) as DG.
  set (m := dg F) in *. set (l := dg G) in *.
  assert (Fin : (1 <= m + l)%nat -> (exists O, norm O /\ graw O == subres m l (graw F) (graw G) 0 /\
    exists n0, forall fuel, (n0 <= fuel)%nat -> (if (Z.of_nat m <? 0) || (Z.of_nat l <? 0) then Ok []
      else if Z.of_nat m =? 0 then p_pow S K compress 64 (Some (c1 K)) F (Z.of_nat l)
      else if Z.of_nat l =? 0 then p_pow S K compress 64 (Some (c1 K)) G (Z.of_nat m)
      else if Z.of_nat m <? Z.of_nat l then (P <- resultant_ge K v compress dcompress fuel G F (Z.of_nat l) (Z.of_nat m) ;; Ok (neg_if K (Z.odd (Z.of_nat l) && Z.odd (Z.of_nat m)) P))
      else resultant_ge K v compress dcompress fuel F G (Z.of_nat m) (Z.of_nat l)) = Ok O) ->
    exists O, norm O /\ graw O == determinant K (sylvester K v m l (graw F) (graw G)) /\
    exists n0, forall fuel, (n0 <= fuel)%nat -> match F, G with [], _ | _, [] => Ok [] | _, _ =>
      (if (Z.of_nat m <? 0) || (Z.of_nat l <? 0) then Ok []
      else if Z.of_nat m =? 0 then p_pow S K compress 64 (Some (c1 K)) F (Z.of_nat l)
      else if Z.of_nat l =? 0 then p_pow S K compress 64 (Some (c1 K)) G (Z.of_nat m)
      else if Z.of_nat m <? Z.of_nat l then (P <- resultant_ge K v compress dcompress fuel G F (Z.of_nat l) (Z.of_nat m) ;; Ok (neg_if K (Z.odd (Z.of_nat l) && Z.odd (Z.of_nat m)) P))
      else resultant_ge K v compress dcompress fuel F G (Z.of_nat m) (Z.of_nat l)) end = Ok O).
  { intros Hml (O & NO & RO & n0 & E). exists O. split; [exact NO|]. split; [rewrite RO; apply (subres_det K HD v m l _ _ Hml DF DG)|]. exists n0. intros fuel Hf. rewrite Sh. apply E, Hf. }
  destruct (Z.ltb_spec (Z.of_nat m) 0) as [X1|_]; [lia|]. destruct (Z.ltb_spec (Z.of_nat l) 0) as [X1|_]; [lia|]. cbn [orb] in *.
  destruct (Z.eqb_spec (Z.of_nat m) 0) as [m0|mn].
  - assert (m0' : m = 0%nat) by lia. destruct (p_pow_ok S (mok vo) sm K HS HK HD compress HC F (Z.of_nat l) NF ltac:(lia)) as (P & EP & NP & RP). rewrite Nat2Z.id in RP.
    destruct (Nat.eq_dec l 0) as [l0|ln].
    + exists P. split; [exact NP|]. split; [|exists 0%nat; intros fuel _; rewrite Sh; exact EP]. rewrite RP, l0, m0'. cbn [Spec.rpow]. reflexivity.
    + apply Fin; [lia|]. exists P. split; [exact NP|]. split; [|exists 0%nat; intros fuel _; exact EP]. rewrite RP, m0'. symmetry. apply (subres_0l K HD v); [lia|]. apply (dg_free F NF m0').
  - destruct (Z.eqb_spec (Z.of_nat l) 0) as [l0|ln].
    + assert (l0' : l = 0%nat) by lia. apply Fin; [lia|]. destruct (p_pow_ok S (mok vo) sm K HS HK HD compress HC G (Z.of_nat m) NG ltac:(lia)) as (P & EP & NP & RP). rewrite Nat2Z.id in RP.
      exists P. split; [exact NP|]. split; [|exists 0%nat; intros fuel _; exact EP]. rewrite RP, l0'. symmetry. apply (subres_0r K HD v); [lia|]. apply (dg_free G NG l0').
    + apply Fin; [lia|]. destruct (Z.ltb_spec (Z.of_nat m) (Z.of_nat l)) as [L|L].
      * destruct (ge_ok G F NG NF) as (P & NP & RP & n0 & EP); [fold m; lia|fold m; fold l; lia|exact HGb|]. fold m in RP, EP. fold l in RP, EP.
        destruct (neg_if_ok K HD v (l * m) P NP) as [N1 R1]. replace (Z.odd (Z.of_nat (l * m))) with (Z.odd (Z.of_nat l) && Z.odd (Z.of_nat m)) in N1, R1 by (rewrite Nat2Z.inj_mul, Z.odd_mul; reflexivity).
        exists (neg_if K (Z.odd (Z.of_nat l) && Z.odd (Z.of_nat m)) P). split; [exact N1|]. split; [rewrite R1, RP; symmetry; apply (subres_swap K HD v)|].
        exists n0. intros fuel Hf. rewrite (EP fuel Hf). reflexivity.
      * destruct (ge_ok F G NF NG) as (P & NP & RP & n0 & EP); [fold l; lia|fold m; fold l; lia|exact HF|]. fold m in RP, EP. fold l in RP, EP.
        exists P. split; [exact NP|]. split; [exact RP|]. exists n0. exact EP.
Qed.
End RTM.
