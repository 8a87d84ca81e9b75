(** * The subresultant-chain path of resultant(O,F,G,v) (resultant.hh 92-253) yields the 0-th subresultant. *)
From Coq Require Import Ring_theory Ring Setoid Morphisms Lia.
From Verif Require Import Prelude Coef Spec SpecProofs SpecOps SpecOpsProofs OrderSpec PairVec PairVecProofs Mono MonoProofs
  MonoStruct MonoStructProofs Heap Poly PolyMulProofs Div PolyDivProofs PolyOps MonoOpsProofs PolyOpsGen PolyOpsProofs PolyOps2Proofs
  Prem PremProofs GcdDom GcdPoly GcdMath GcdHom GcdRep GcdLex ResSpec ResDet ResMath ResChain Resultant ResProofs.
Local Open Scope Z_scope.

Section RI.
Context {C : Type} (K : coefs C) (HD : domain_ok K) (HG : cgcd_ok K) (HQ : quorem_ok K) (v : var).
Context (compress dcompress : poly C -> poly C -> outcome (option (poly C))).
Let HK : ring_ok K := domain_ring K HD.
Local Existing Instance HK.
Add Ring Kring : (ring_laws K HK).
Add Ring Rring : (rring K HK) (setoid (req_equiv K) (rring_ext K HK)).
Notation vo := (vuniv v).
Let Hvo : vorder_ok vo := vuniv_ok v.
Notation S := (lexS vo).
Notation norm := (normal (mok vo) (lex_gt vo) K).
Notation graw := (graw sm).
Notation poly := (poly C).
Notation rmul := (rmul K). Notation rpow := (rpow K).
Local Infix "==" := (req K) (at level 70).
Notation r0 := (@Spec.r0 C). Notation r1 := (Spec.r1 K).
Notation cf := (cf K v). Notation dl := (dl K v). Notation m1 := (ropp K r1).
Notation free := (vfree K v).
Notation dg := (dg v).
Context (HC : comp_all S (mok vo) sm K compress).
Context (HDC : forall F G, norm F -> norm G -> dcomp_good S (mok vo) sm K dcompress F G).
Local Existing Instance rpow_proper.
Local Existing Instance cf_proper.
Local Existing Instance dl_proper.

Definition finish (fuel : nat) (st : outcome (rstate (C := C))) : outcome poly :=
  s <- st ;; match s with Done P => Ok P | Loop Sj1 Sj Sr j => res_loop K v compress dcompress fuel fuel Sj1 Sj Sr j end.
Definition yields (st : nat -> outcome (rstate (C := C))) (q : rpoly C) : Prop :=
  exists O, norm O /\ graw O == q /\ exists n0, forall fuel, (n0 <= fuel)%nat -> finish fuel (st fuel) = Ok O.
Lemma yields_done (st : nat -> outcome rstate) q P n1 : (forall f, (n1 <= f)%nat -> st f = Ok (Done P)) -> norm P -> graw P == q -> yields st q.
Proof. intros E N R. exists P. split; [exact N|]. split; [exact R|]. exists n1. intros f Hf. rewrite (E f Hf). reflexivity. Qed.
Lemma yields_loop (st : nat -> outcome rstate) Sg Sj1 Sj Sr j n1 : (forall f, (n1 <= f)%nat -> st f = Ok (Loop Sj1 Sj Sr (Z.of_nat j))) ->
  lstate K v Sg j Sj1 Sj -> Z.of_nat j + 1 < 2 ^ 63 -> yields st (Sg 0%nat).
Proof.
  intros E L Hb. destruct (loop_ok K HD HG HQ v compress HC Sg dcompress HDC j Sj1 Sj Sr L Hb) as (O & N & R & n0 & T).
  exists O. split; [exact N|]. split; [exact R|]. exists (n0 + n1)%nat. intros f Hf. rewrite (E f ltac:(lia)). unfold finish. cbn [obind]. apply T; lia.
Qed.

Context (F G : poly) (NF : norm F) (NG : norm G).
Notation m := (dg F). Notation l := (dg G).
Context (Hl : (1 <= l)%nat) (Hb : Z.of_nat m < 2 ^ 63).
Lemma Gne : G <> []. Proof. intros E. rewrite E in Hl. vm_compute in Hl. lia. Qed.

Lemma init_lt_ok : (l < m)%nat -> yields (fun f => init_lt K v compress f F G (Z.of_nat m) (Z.of_nat l)) (subres K v m l (graw F) (graw G) 0).
Proof.
  intros L. set (Sg := subres K v m l (graw F) (graw G)).
  destruct (prem_ok K HD v compress HC F G NF NG Gne ltac:(lia) Hb) as (Cc & Q & NC & DC & EQ & n1 & TC).
  set (d := (m - 1 - l)%nat). replace (m - l + 1)%nat with (d + 2)%nat in EQ by lia.
  pose proof (init_KK K HD v (graw F) (graw G) m l L) as KKe. fold Sg d in KKe.
  pose proof (dg_dl K HD v F NF) as HF. replace (Datatypes.S m) with (d + l + 2)%nat in HF by lia.
  pose proof (dg_dl K HD v G NG) as HGl. pose proof (dg_lc K HD v G NG Gne) as Ng.
  assert (F1 : free r1) by apply (vfree_const K).
  assert (N1 : ~ r1 == r0).
  { intros X. apply Ng. transitivity (rmul r1 (cf l (graw G))); [ring|]. rewrite X. ring. }
  pose proof (step_r K HD v (graw F) (graw G) l d r1 0 0 Sg HGl KKe) as SR.
  pose proof (step_pred K HD HG v (graw F) (graw G) Q (graw Cc) l d r1 0 0 Sg HF HGl Ng EQ DC KKe Hl) as SP.
  pose proof (step_chain K HD HG v (graw F) (graw G) Q (graw Cc) l d r1 0 0 Sg HF HGl Ng EQ DC F1 N1 KKe Hl) as NX.
  cbn [Nat.add Spec.rpow] in SR, SP.
  assert (SR' : rmul (rpow (cf l (graw G)) d) (graw G) == Sg l) by (rewrite <- SR; ring).
  assert (SP' : rmul (rpow m1 d) (graw Cc) == Sg (l - 1)%nat) by (rewrite <- SP; ring).
  destruct (Nat.eq_dec d 0) as [d0|d0].
  - apply (yields_loop _ Sg G Cc [] (l - 1) n1); [|apply (lstate_of K HD v Sg l G Cc (graw G) (graw Cc) Hl NX NC); [reflexivity| |intros _; split; [exact NG|split; [reflexivity|]]]|lia].
    + intros f Hf. unfold init_lt. destruct (Z.eqb_spec (Z.of_nat m - 1) (Z.of_nat l)); [|lia]. rewrite (TC f Hf). cbn [obind].
      replace (Z.of_nat m - 1 - 1) with (Z.of_nat (l - 1)) by lia. reflexivity.
    + rewrite <- SP', d0. cbn [Spec.rpow]. ring.
    + rewrite <- SR', d0. cbn [Spec.rpow]. ring.
  - destruct (lc_ok K HD v G NG) as [Nc Rc].
    destruct (pow_mul_ok K HD v compress HC [] (lc v G) G (Z.of_nat d) Nc NG ltac:(lia)) as (Sr & ESr & NSr & RSr). rewrite Nat2Z.id, Rc in RSr.
    destruct (neg_if_ok K HD v d Cc NC) as [NT RT].
    apply (yields_loop _ Sg Sr (neg_if K (Z.odd (Z.of_nat d)) Cc) [] (l - 1) n1).
    + intros f Hf. unfold init_lt. destruct (Z.eqb_spec (Z.of_nat m - 1) (Z.of_nat l)); [lia|].
      replace (Z.of_nat m - 1 - Z.of_nat l) with (Z.of_nat d) by lia. rewrite ESr. cbn [obind]. rewrite (TC f Hf). cbn [obind].
      replace (Z.of_nat l - 1) with (Z.of_nat (l - 1)) by lia. reflexivity.
    + apply (lstate_of K HD v Sg l Sr (neg_if K (Z.odd (Z.of_nat d)) Cc) (rmul (rpow (cf l (graw G)) d) (graw G)) (rmul (rpow m1 d) (graw Cc)) Hl NX NT RT SP'). intros _. split; [exact NSr|]. split; [exact RSr|exact SR'].
    + lia.
Qed.

Lemma init_eq_ok : l = m -> yields (fun f => init_eq K v compress dcompress f F G (Z.of_nat m)) (subres K v m l (graw F) (graw G) 0).
Proof.
  intros L. rewrite L. set (Sg := subres K v m m (graw F) (graw G)).
  destruct (prem_ok K HD v compress HC F G NF NG Gne ltac:(lia) Hb) as (P & Q & NP & DP0 & EQ & n1 & TP). rewrite L in DP0, EQ.
  replace (m - m + 1)%nat with 1%nat in EQ by lia. cbn [Spec.rpow] in EQ.
  pose proof (dg_dl K HD v F NF) as HF. pose proof (dg_dl K HD v G NG) as HGl. rewrite L in HGl. pose proof (dg_lc K HD v G NG Gne) as Ng. rewrite L in Ng.
  set (g := cf m (graw G)) in *.
  assert (EQ' : rmul g (graw F) == radd (rmul Q (graw G)) (graw P)) by (rewrite <- EQ; ring).
  destruct (neg_ok K HD v P NP) as [NSj RSj]. set (Sj := p_neg K P) in *.
  assert (Fg : free g) by apply (cf_free K HD).
  assert (Hm : (1 <= m)%nat) by (rewrite <- L; exact Hl).
  destruct (Nat.eq_dec (m - 1) 0) as [j0|j0].
  { apply (yields_done _ _ Sj n1); [|exact NSj|].
    - intros f Hf. unfold init_eq. rewrite (TP f Hf). cbn [obind]. cbv zeta. destruct (Z.eqb_spec (Z.of_nat m - 1) 0); [reflexivity|lia].
    - rewrite RSj. pose proof (equal_top K HD HG v (graw F) (graw G) Q (graw P) m Hm HF HGl Ng EQ' DP0) as X. rewrite j0 in X. symmetry. exact X. }
  set (r := dg Sj). assert (Hr : p_up_deg v Sj = Z.of_nat r) by apply (up_eq K HD v Sj NSj).
  assert (DSj : dl (Datatypes.S (m - 1)) (graw Sj)).
  { replace (Datatypes.S (m - 1)) with m by lia. rewrite RSj. apply (dl_opp K HD), DP0. }
  assert (Lr : (r <= m - 1)%nat) by apply (dg_le K HD v Sj (m - 1) NSj DSj).
  destruct (lc_ok K HD v Sj NSj) as [Nb Rb]. fold r in Rb.
  pose proof (dg_dl K HD v Sj NSj) as HB. fold r in HB.
  set (d := (m - 1 - r)%nat).
  destruct (Nat.eq_dec (length Sj) 0) as [Z0|Z0].
  { apply length_zero_iff_nil in Z0. assert (Er : r = 0%nat) by (unfold r; rewrite Z0; reflexivity).
    destruct (pow_mul_ok K HD v compress HC [] (lc v Sj) Sj (Z.of_nat d) Nb NSj ltac:(lia)) as (Sr & ESr & NSr & RSr).
    apply (yields_done _ _ Sr n1); [|exact NSr|].
    - intros f Hf. unfold init_eq. rewrite (TP f Hf). cbn [obind]. cbv zeta. fold Sj. destruct (Z.eqb_spec (Z.of_nat m - 1) 0); [lia|]. rewrite Hr.
      destruct (Z.ltb_spec (Z.of_nat r) 0); [lia|]. destruct (Z.ltb_spec (Z.of_nat r) (Z.of_nat m - 1)); [|lia]. destruct (Z.eqb_spec (Z.of_nat r) 1); [lia|]. cbn [negb].
      replace (Z.of_nat m - 1 - Z.of_nat r) with (Z.of_nat d) by lia. rewrite ESr. cbn [obind]. destruct (Z.eqb_spec (Z.of_nat r) 0); [reflexivity|lia].
    - assert (P0 : graw P == r0).
      { transitivity (ropp K (ropp K (graw P))); [ring|]. rewrite <- RSj, Z0. change (graw (@nil (mono * C))) with r0. ring. }
      rewrite RSr.
      pose proof (equal_zero K HD HG v (graw F) (graw G) Q (graw P) m Hm HF HGl Ng EQ' DP0 P0 0%nat ltac:(lia)) as X. transitivity (@Spec.r0 C); [|symmetry; exact X]. transitivity (rmul (rpow (graw (lc v Sj)) (Z.to_nat (Z.of_nat d))) r0); [|ring]. rewrite Z0. reflexivity. }
  assert (Ne : Sj <> []) by (intros E; apply Z0; rewrite E; reflexivity).
  pose proof (dg_lc K HD v Sj NSj Ne) as Nlb. fold r in Nlb.
  assert (DPr : dl (Datatypes.S r) (graw P)).
  { assert (E : graw P == ropp K (graw Sj)) by (rewrite RSj; ring). rewrite E. apply (dl_opp K HD), HB. }
  assert (KKe : forall i, (i <= r)%nat -> KK K v (graw G) (graw Sj) r d i == rmul (rpow g (0 + 1 * (r - i))) (Sg i)).
  { intros i Hi. pose proof (equal_KK K HD HG v (graw F) (graw G) Q (graw P) m Hm HF HGl Ng EQ' DP0 r ltac:(lia) DPr i Hi) as X.
    transitivity (KK K v (graw G) (ropp K (graw P)) r d i); [|exact X].
    unfold KK. apply (DP_eq K HD). apply Forall2_app; apply (shifts_eq K HD); [reflexivity|exact RSj]. }
  pose proof (step_r K HD v (graw G) (graw Sj) r d g 0 1 Sg HB KKe) as SR. cbn [Spec.rpow] in SR.
  assert (SR' : rmul (rpow (cf r (graw Sj)) d) (graw Sj) == Sg r) by (rewrite <- SR; ring).
  assert (Srx : exists Sr, ((d <> 0%nat) -> (r <> 1)%nat -> norm Sr /\ graw Sr == Sg r) /\
    ((d <> 0%nat) -> (if negb (Z.of_nat r =? 1) then pow_mul K v compress [] (lc v Sj) Sj (Z.of_nat d) else Ok []) = Ok Sr)).
  { destruct (Nat.eq_dec d 0) as [d0|d0]; [exists []; split; intros; contradiction|].
    destruct (Z.eqb_spec (Z.of_nat r) 1); cbn [negb]; [exists []; split; [intros; lia|reflexivity]|].
    destruct (pow_mul_ok K HD v compress HC [] (lc v Sj) Sj (Z.of_nat d) Nb NSj ltac:(lia)) as (Sr & ESr & NSr & RSr). rewrite Nat2Z.id, Rb in RSr.
    exists Sr. split; [intros; split; [exact NSr|rewrite RSr; exact SR']|intros _; exact ESr]. }
  destruct Srx as (Sr & HSr & ESr).
  destruct (Nat.eq_dec r 0) as [re|re].
  { destruct (HSr ltac:(lia) ltac:(lia)) as [NSr RSr]. apply (yields_done _ _ Sr n1); [|exact NSr|rewrite RSr, re; reflexivity].
    intros f Hf. unfold init_eq. rewrite (TP f Hf). cbn [obind]. cbv zeta. fold Sj. destruct (Z.eqb_spec (Z.of_nat m - 1) 0); [lia|]. rewrite Hr.
    destruct (Z.ltb_spec (Z.of_nat r) 0); [lia|]. destruct (Z.ltb_spec (Z.of_nat r) (Z.of_nat m - 1)); [|lia].
    replace (Z.of_nat m - 1 - Z.of_nat r) with (Z.of_nat d) by lia. rewrite (ESr ltac:(lia)). cbn [obind]. destruct (Z.eqb_spec (Z.of_nat r) 0); [reflexivity|lia]. }
  assert (Hr1 : (1 <= r)%nat) by lia.
  destruct (prem_ok K HD v compress HC G Sj NG NSj Ne ltac:(fold r; lia) ltac:(lia)) as (Cc & Q' & NC & DC & EQ2 & n2 & TC). fold r in DC, EQ2. rewrite L in EQ2.
  replace (m - r + 1)%nat with (d + 2)%nat in EQ2 by lia.
  assert (HA : dl (d + r + 2) (graw G)) by (replace (d + r + 2)%nat with (Datatypes.S m) by lia; exact HGl).
  pose proof (step_pred K HD HG v (graw G) (graw Sj) Q' (graw Cc) r d g 0 1 Sg HA HB Nlb EQ2 DC KKe Hr1) as SP. cbn [Nat.add Spec.rpow] in SP.
  pose proof (step_chain K HD HG v (graw G) (graw Sj) Q' (graw Cc) r d g 0 1 Sg HA HB Nlb EQ2 DC Fg Ng KKe Hr1) as NX.
  destruct (lc_ok K HD v G NG) as [Nc Rc]. rewrite L in Rc. fold g in Rc.
  destruct (div_ok K HD HQ v dcompress HDC Cc (lc v G) (rmul (rpow m1 d) (Sg (r - 1)%nat)) NC Nc (lc_ne K HD v G NG Gne)) as (T & NT & RT & n3 & TT).
  { rewrite Rc. transitivity (rmul (rpow m1 d) (rmul (rmul g r1) (Sg (r - 1)%nat))); [|ring]. rewrite SP.
    transitivity (rmul (rpow m1 (d + d)) (graw Cc)); [rewrite (rpow_m1_even K HD); ring|rewrite (rpow_add K HK); ring]. }
  destruct (neg_if_ok K HD v d T NT) as [NT' RT'].
  assert (RT'' : graw (neg_if K (Z.odd (Z.of_nat d)) T) == Sg (r - 1)%nat).
  { rewrite RT', RT. transitivity (rmul (rpow m1 (d + d)) (Sg (r - 1)%nat)); [rewrite (rpow_add K HK); ring|]. rewrite (rpow_m1_even K HD). ring. }
  destruct (Nat.eq_dec d 0) as [d0|d0].
  - rewrite d0 in *. change (neg_if K (Z.odd (Z.of_nat 0)) T) with T in *.
    apply (yields_loop _ Sg Sj T [] (r - 1) (n1 + n2 + n3)).
    + intros f Hf. unfold init_eq. rewrite (TP f ltac:(lia)). cbn [obind]. cbv zeta. fold Sj. destruct (Z.eqb_spec (Z.of_nat m - 1) 0); [lia|]. rewrite Hr.
      destruct (Z.ltb_spec (Z.of_nat r) 0); [lia|]. destruct (Z.ltb_spec (Z.of_nat r) (Z.of_nat m - 1)); [lia|].
      rewrite (TC f ltac:(lia)). cbn [obind]. rewrite (TT f ltac:(lia)). cbn [obind]. replace (Z.of_nat m - 1 - 1) with (Z.of_nat (r - 1)) by lia. reflexivity.
    + apply (lstate_of K HD v Sg r Sj T (graw Sj) (graw T) Hr1 NX NT); [reflexivity|exact RT''|]. intros _. split; [exact NSj|]. split; [reflexivity|].
      rewrite <- SR'. cbn [Spec.rpow]. ring.
    + lia.
  - apply (yields_loop _ Sg Sr (neg_if K (Z.odd (Z.of_nat d)) T) [] (r - 1) (n1 + n2 + n3)).
    + intros f Hf. unfold init_eq. rewrite (TP f ltac:(lia)). cbn [obind]. cbv zeta. fold Sj. destruct (Z.eqb_spec (Z.of_nat m - 1) 0); [lia|]. rewrite Hr.
      destruct (Z.ltb_spec (Z.of_nat r) 0); [lia|]. destruct (Z.ltb_spec (Z.of_nat r) (Z.of_nat m - 1)); [|lia].
      replace (Z.of_nat m - 1 - Z.of_nat r) with (Z.of_nat d) by lia. rewrite (ESr d0). cbn [obind]. destruct (Z.eqb_spec (Z.of_nat r) 0); [lia|].
      rewrite (TC f ltac:(lia)). cbn [obind]. rewrite (TT f ltac:(lia)). cbn [obind].
      replace (Z.of_nat r - 1) with (Z.of_nat (r - 1)) by lia. reflexivity.
    + apply (lstate_of K HD v Sg r Sr (neg_if K (Z.odd (Z.of_nat d)) T) (graw Sr) (graw (neg_if K (Z.odd (Z.of_nat d)) T)) Hr1 NX NT'); [reflexivity|exact RT''|]. intros H2.
      destruct (HSr d0 ltac:(lia)) as [X Y]. split; [exact X|]. split; [reflexivity|exact Y].
    + lia.
Qed.
End RI.
