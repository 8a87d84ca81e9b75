(** * Conversion of rational polynomials to integer ones: polynomial_convert.hh 125-163 (model and proof). *)
From Coq Require Import QArith.
From Verif Require Import Prelude Coef Spec SpecProofs SpecOps SpecOpsProofs OrderSpec PairVec PairVecProofs Mono MonoProofs
  MonoStruct MonoStructProofs Poly PolyMulProofs PolyOps PolyOpsGen PolyOpsProofs ConvertProofs QQ NumSpec QQProofs ZZProofs.
Local Open Scope Z_scope.

(** The common denominator (131-135): den = lcm(den, get_den()) over all terms. *)
Definition qq_common_den (p : poly qqc) : Z :=
  fold_left (fun d t => Z.lcm d (qden (proj1_sig (snd t)))) p 1.
(** poly_convert(polynomial_<QQ>, polynomial_<ZZ>): each coefficient becomes num*(den/its denominator). *)
Definition p_convert_qq (vo2 : vorder) (gt2 : mono -> mono -> bool) (msrt : list (var * Z) -> list (var * Z))
  (srt : poly Z -> poly Z) (p : poly qqc) : poly Z :=
  let den := qq_common_den p in
  p_convert Zc vo2 gt2 msrt srt (fun q => qnum (proj1_sig q) * (den ÷ qden (proj1_sig q))) p.

Lemma common_den_spec p : 0 < qq_common_den p /\ forall t, In t p -> (qden (proj1_sig (snd t)) | qq_common_den p).
Proof.
  unfold qq_common_den.
  assert (G : forall d, 0 < d -> 0 < fold_left (fun d t => Z.lcm d (qden (proj1_sig (snd t)))) p d /\
    (d | fold_left (fun d t => Z.lcm d (qden (proj1_sig (snd t)))) p d) /\
    forall t : mono * qqc, In t p -> (qden (proj1_sig (snd t)) | fold_left (fun d t => Z.lcm d (qden (proj1_sig (snd t)))) p d)).
  { induction p as [|u p IH]; intros d Hd; cbn [fold_left]; [split; [exact Hd|split; [apply Z.divide_refl|intros t []]]|].
    destruct (qqc_ok (snd u)) as [Hu _].
    assert (Hl : 0 < Z.lcm d (qden (proj1_sig (snd u)))).
    { pose proof (Z.lcm_nonneg d (qden (proj1_sig (snd u)))). assert (Z.lcm d (qden (proj1_sig (snd u))) <> 0); [|lia].
      intros E. apply Z.lcm_eq_0 in E. lia. }
    destruct (IH _ Hl) as (A & B & D). split; [exact A|]. split; [apply Z.divide_trans with (2 := B), Z.divide_lcm_l|].
    intros t [<-|Ht]; [apply Z.divide_trans with (2 := B), Z.divide_lcm_r|apply D, Ht]. }
  destruct (G 1 ltac:(lia)) as (A & _ & D). split; assumption.
Qed.

Section Q.
Context (vo1 vo2 : vorder) (Hv1 : vorder_ok vo1) (Hv2 : vorder_ok vo2).
Context (S1 S2 : monos mono) (HS1 : S1 = lexS vo1 \/ S1 = grlexS vo1) (HS2 : S2 = lexS vo2 \/ S2 = grlexS vo2).
Context (msrt : list (var * Z) -> list (var * Z)) (Hms : sort_ok (fun _ : var => True) vo2 msrt).
Context (srt : poly Z -> poly Z) (Hsrt : sort_ok (mok vo2) (m_gt S2) srt).

Theorem convert_qq_den p : normal (mok vo1) (m_gt S1) QQc p ->
  let r := p_convert_qq vo2 (m_gt S2) msrt srt p in
  normal (mok vo2) (m_gt S2) Zc r /\
  forall s, (inject_Z (coef Zc (graw sm r) s) == inject_Z (qq_common_den p) * qcval (coef QQc (graw sm p) s))%Q.
Proof.
  intros N r. destruct (common_den_spec p) as [Hd Hdiv].
  set (den := qq_common_den p) in *.
  destruct (convert_spec vo1 vo2 Hv1 Hv2 S1 S2 HS1 HS2 QQc Zc (domain_ring _ (field_domain _ QQc_field)) (domain_ring _ Zc_domain)
     (fun q => qnum (proj1_sig q) * (den ÷ qden (proj1_sig q))) eq_refl msrt Hms srt Hsrt p N) as [A B].
  split; [exact A|]. intros s. change r with (p_convert Zc vo2 (m_gt S2) msrt srt (fun q => qnum (proj1_sig q) * (den ÷ qden (proj1_sig q))) p).
  rewrite B. clear A B r.
  destruct (c0_dec QQc (domain_ring _ (field_domain _ QQc_field)) (coef QQc (graw sm p) s)) as [E|E].
  - rewrite E. cbn -[Qmult]. unfold Qeq; cbn. lia.
  - assert (M1 := HS vo1 Hv1 S1 HS1).
    pose proof E as E'. apply (norm_supp S1 (mok vo1) sm QQc M1 (domain_ring _ (field_domain _ QQc_field)) p s N) in E' as (t & Hin & Et).
    rewrite <- (coef_proper QQc (domain_ring _ (field_domain _ QQc_field)) (graw sm p) _ _ Et).
    rewrite (in_coef S1 (mok vo1) sm QQc M1 (domain_ring _ (field_domain _ QQc_field)) p t (proj1 N) (proj1 (proj2 N)) Hin).
    specialize (Hdiv t Hin). destruct (qqc_ok (snd t)) as [Hq _]. unfold qcval, qval. destruct (proj1_sig (snd t)) as [n d]. cbn [qnum qden] in *.
    destruct Hdiv as [k Ek]. rewrite Ek, Z.quot_mul by lia. unfold Qeq. cbn [Qnum Qden inject_Z Qmult]. rewrite Pos.mul_1_l, Z2Pos.id by lia. nia.
Qed.
Theorem convert_qq_spec p : normal (mok vo1) (m_gt S1) QQc p ->
  let r := p_convert_qq vo2 (m_gt S2) msrt srt p in
  exists den, 0 < den /\ normal (mok vo2) (m_gt S2) Zc r /\
  forall s, (inject_Z (coef Zc (graw sm r) s) == inject_Z den * qcval (coef QQc (graw sm p) s))%Q.
Proof. intros N r. exists (qq_common_den p). split; [apply common_den_spec|apply (convert_qq_den p N)]. Qed.
End Q.
