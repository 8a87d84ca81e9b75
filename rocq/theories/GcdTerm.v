(** * Gcds of which one argument has a single term (Gcd.v, [single_gcd], [coeff_gcd]). *)
From Coq Require Import Ring_theory Ring Setoid Morphisms.
From Verif Require Import Prelude Coef Spec SpecProofs SpecOps SpecOpsProofs GcdDom GcdPoly GcdMath OrderSpec PairVec PairVecProofs
  Mono MonoProofs MonoStruct MonoStructProofs Heap Poly PolyMulProofs Div PolyDivProofs PolyOps MonoOpsProofs PolyOpsGen PolyOpsProofs
  PolyOps2Proofs PolyOps3Proofs Groebner MonoGcdProofs Gcd GcdHom GcdLex GcdCont.
Local Open Scope Z_scope.

Section T.
Context (vo : vorder) (Hvo : vorder_ok vo).
Notation K := Zc.
Let HD : domain_ok K := Zc_domain.
Let HK : ring_ok K := domain_ring K HD.
Let HG : cgcd_ok K := Z_cgcd.
Local Existing Instance HK.
Add Ring Rring : (rring K HK) (setoid (req_equiv K) (rring_ext K HK)).
Notation S := (lexS vo).
Notation gt := (lex_gt vo).
Notation norm := (normal (mok vo) gt K).
Notation graw := (graw sm).
Notation poly := (poly Z).
Notation "a == b" := (req K a b) (at level 70).
Notation "a %| b" := (rdivides K a b) (at level 70).
Let M1 := lexS_ok vo Hvo.

Lemma term_dvd_coef m d (p : rpoly Z) s : [(m, d)] %| p -> coef K p s <> 0 -> mdivides m s /\ (d | coef K p s).
Proof.
  intros [q E] H. rewrite (E s) in H. split.
  - apply (coef_mul_supp K HK) in H as (a & b & _ & Hb & Es). cbn [Spec.coef] in Hb.
    destruct (meqb_spec m b) as [e|n]; [|contradiction Hb; reflexivity]. intros v. rewrite <- (Es v), exp_app, <- (e v). lia.
  - assert (X : rmul K q [(m, d)] == rscale K d (rmul K q (rmono K m))).
    { rewrite (rscale_mul K HK), (term_split K HD m d). ring. }
    rewrite (E s), (X s), (coef_scale K HK). exists (coef K (rmul K q (rmono K m)) s). cbn [cmul Zc]. ring.
Qed.
Lemma msplit a b : mdivides a b -> exists q, meq (a ++ q) b.
Proof.
  revert b. induction a as [|[v e] a IH]; intros b H; [exists b; intros w; reflexivity|].
  assert (Hv : (e <= exp b v)%N). { specialize (H v). cbn [exp] in H. rewrite N.eqb_refl in H. lia. }
  set (b' := (v, exp b v - e)%N :: mdrop v b).
  assert (Eb : forall w, (exp b w = (if N.eqb v w then e else 0) + exp b' w)%N).
  { intros w. unfold b'. cbn [exp]. rewrite exp_mdrop. destruct (N.eqb_spec v w) as [->|n]; [rewrite N.eqb_refl; lia|].
    destruct (N.eqb_spec w v); [congruence|lia]. }
  destruct (IH b') as [q Hq]; [intros w; specialize (H w); rewrite (Eb w) in H; cbn [exp] in H; destruct (N.eqb v w); lia|].
  exists q. intros w. rewrite (Eb w), <- (Hq w). cbn [exp app]. destruct (N.eqb v w); lia.
Qed.
Lemma term_dvd_term m d m' c : mdivides m m' -> (d | c) -> [(m, d)] %| [(m', c)].
Proof.
  intros H [e ->]. destruct (msplit m m' H) as [q Hq]. exists [(q, e)]. cbn [Spec.rmul flat_map map app fst snd].
  apply (req_single K); [|cbn; ring]. intros w. rewrite <- (Hq w), !exp_app. lia.
Qed.
Lemma term_dvd_sum m d (p : rpoly Z) : (forall t, In t p -> mdivides m (fst t) /\ (d | snd t)) -> [(m, d)] %| p.
Proof.
  induction p as [|[m' c] p IH]; intros H; [apply (rd_0 K HD)|]. change ((m', c) :: p) with (radd [(m', c)] p).
  apply (rd_add K HD); [|apply IH; intros t Ht; apply H; right; exact Ht].
  apply term_dvd_term; apply (H (m', c) (or_introl eq_refl)).
Qed.

(** the terms of both polynomials *)
Theorem terms_gcd (F G : poly) m c : norm F -> norm G -> (exists t, F = [t]) \/ (exists t, G = [t]) ->
  mok vo m -> c <> 0 -> (forall t, In t (F ++ G) -> (forall v, zexp m v <= zexp (fst t) v) /\ (c | snd t)) ->
  (forall (s : smono), (forall t, In t (F ++ G) -> mdivides s (sm (fst t))) -> mdivides s (sm m)) ->
  (forall d, (forall t, In t (F ++ G) -> (d | snd t)) -> (d | c)) ->
  norm [(m, c)] /\ is_gcd K (graw F) (graw G) (graw [(m, c)]).
Proof.
  intros NF NG H1 Om Nc HL Um Uc. split; [split; [constructor; [exact Om|constructor]|split; [repeat constructor|constructor; [exact Nc|constructor]]]|].
  assert (Dv : forall p : poly, norm p -> (forall t, In t p -> In t (F ++ G)) -> graw [(m, c)] %| graw p).
  { intros p Np Hp. apply (term_dvd_sum (sm m) c). intros t Ht. unfold MonoStruct.graw in Ht. apply in_map_iff in Ht as (u & <- & Hu). cbn [fst snd].
    destruct (HL u (Hp u Hu)) as [A1 A2]. split; [|exact A2]. intros v. destruct (nin vo K p u Np Hu) as [Ou _].
    rewrite (exp_sm_mok vo _ v Om), (exp_sm_mok vo _ v Ou). specialize (A1 v). lia. }
  split; [apply Dv; [exact NF|intros; apply in_or_app; auto]|]. split; [apply Dv; [exact NG|intros; apply in_or_app; auto]|].
  intros D DF DG.
  assert (T : exists m' d, D == [(m', d)]).
  { destruct H1 as [[t ->]|[t ->]].
    - destruct DF as [q Hq]. destruct (nin vo K [t] t NF (or_introl eq_refl)) as [_ Ht].
      destruct (divisor_term K HD HG (sm (fst t)) (snd t) D q Ht) as (m' & d & _ & _ & ED & _); [symmetry; exact Hq|eauto].
    - destruct DG as [q Hq]. destruct (nin vo K [t] t NG (or_introl eq_refl)) as [_ Ht].
      destruct (divisor_term K HD HG (sm (fst t)) (snd t) D q Ht) as (m' & d & _ & _ & ED & _); [symmetry; exact Hq|eauto]. }
  destruct T as (m' & d & ED). apply (rdivides_proper K HD _ _ ED _ _ (reflexivity _)).
  apply (rdivides_proper K HD _ _ ED _ _ (reflexivity _)) in DF. apply (rdivides_proper K HD _ _ ED _ _ (reflexivity _)) in DG.
  assert (Dt : forall t, In t (F ++ G) -> mdivides m' (sm (fst t)) /\ (d | snd t)).
  { intros t Ht. apply in_app_or in Ht as [Ht|Ht].
    - pose proof (in_coef S (mok vo) sm K M1 HK F t (proj1 NF) (proj1 (proj2 NF)) Ht) as Ec. rewrite <- Ec.
      apply term_dvd_coef; [exact DF|apply (in_supp vo Hvo K HD F t NF Ht)].
    - pose proof (in_coef S (mok vo) sm K M1 HK G t (proj1 NG) (proj1 (proj2 NG)) Ht) as Ec. rewrite <- Ec.
      apply term_dvd_coef; [exact DG|apply (in_supp vo Hvo K HD G t NG Ht)]. }
  apply term_dvd_term; [apply Um; intros t Ht; apply Dt, Ht|apply Uc; intros t Ht; apply Dt, Ht].
Qed.

(** the two folds *)
Lemma single_fold r : forall m c, mok vo m -> Forall (fun t => mok vo (fst t)) r ->
  let a := fold_left (fun a u => (mono_gcd vo (fst a) (fst u), Z.gcd (snd a) (snd u))) r (m, c) in
  mok vo (fst a) /\ (forall t, In t ((m, c) :: r) -> (forall v, zexp (fst a) v <= zexp (fst t) v) /\ (snd a | snd t)) /\
  (forall s, (forall t, In t ((m, c) :: r) -> mdivides s (sm (fst t))) -> mdivides s (sm (fst a))) /\
  (forall d, (forall t, In t ((m, c) :: r) -> (d | snd t)) -> (d | snd a)).
Proof.
  induction r as [|u r IH]; intros m c Om Or; cbn [fold_left].
  - cbn [fst snd]. split; [exact Om|]. split; [intros t [<-|[]]; split; [intros v; apply Z.le_refl|apply Z.divide_refl]|].
    split; [intros s Hs; apply (Hs (m, c) (or_introl eq_refl))|intros d Hd; apply (Hd (m, c) (or_introl eq_refl))].
  - pose proof (Forall_inv Or) as Ou. cbv beta in Ou. destruct (mono_gcd_spec vo Hvo m (fst u) Om Ou) as [Og Eg]. cbn [fst snd].
    specialize (IH (mono_gcd vo m (fst u)) (Z.gcd c (snd u)) Og (Forall_inv_tail Or)). cbv zeta in IH.
    set (a := fold_left _ _ _) in *. destruct IH as (A1 & A2 & A3 & A4). split; [exact A1|]. split; [|split].
    + pose proof (A2 _ (or_introl eq_refl)) as [B1 B2]. cbn [fst snd] in B1, B2.
      intros t [<-|[<-|Ht]]; [| |apply A2; right; exact Ht]; cbn [fst snd]; split.
      * intros v. specialize (B1 v). rewrite (Eg v) in B1. lia.
      * apply (Z.divide_trans _ _ _ B2), Z.gcd_divide_l.
      * intros v. specialize (B1 v). rewrite (Eg v) in B1. lia.
      * apply (Z.divide_trans _ _ _ B2), Z.gcd_divide_r.
    + intros s Hs. apply A3. intros t [<-|Ht]; [|apply Hs; right; right; exact Ht]. cbn [fst]. intros v.
      rewrite (exp_sm_mok vo _ v Og), (Eg v). pose proof (Hs (m, c) (or_introl eq_refl) v) as X. pose proof (Hs u (or_intror (or_introl eq_refl)) v) as Y.
      cbn [fst] in X. rewrite (exp_sm_mok vo _ v Om) in X. rewrite (exp_sm_mok vo _ v Ou) in Y. lia.
    + intros d Hd. apply A4. intros t [<-|Ht]; [|apply Hd; right; right; exact Ht]. cbn [snd].
      apply Z.gcd_greatest; [apply (Hd (m, c) (or_introl eq_refl))|apply (Hd u (or_intror (or_introl eq_refl)))].
Qed.
Lemma norm_oks (p : poly) : norm p -> Forall (fun t => mok vo (fst t)) p.
Proof. intros (A & _). exact A. Qed.
Theorem single_gcd_ok tf rf tg rg : norm (tf :: rf) -> norm (tg :: rg) -> rf = [] \/ rg = [] ->
  let P := [single_gcd vo tf (rf ++ tg :: rg)] in norm P /\ is_gcd K (graw (tf :: rf)) (graw (tg :: rg)) (graw P).
Proof.
  intros NF NG H. unfold single_gcd. destruct tf as [m c].
  destruct (single_fold (rf ++ tg :: rg) m c) as (A1 & A2 & A3 & A4).
  { apply (nin vo K _ (m, c) NF (or_introl eq_refl)). }
  { apply Forall_app. split; [apply (Forall_inv_tail (norm_oks _ NF))|apply norm_oks, NG]. }
  set (a := fold_left _ _ _) in *. cbv zeta. rewrite (surjective_pairing a).
  change ((m, c) :: rf ++ tg :: rg) with (((m, c) :: rf) ++ tg :: rg) in A2, A3, A4.
  apply terms_gcd; try assumption.
  - destruct H as [->| ->]; eauto.
  - intros E. destruct (A2 (m, c) (or_introl eq_refl)) as [_ X]. cbn [snd] in X. rewrite E in X. apply Z.divide_0_l in X.
    destruct (nin vo K _ (m, c) NF (or_introl eq_refl)) as [_ Y]. apply Y. exact X.
Qed.
Lemma coeff_fold (l : poly) : forall c, let g := fold_left (fun c u => Z.gcd c (snd u)) l c in
  (g | c) /\ (forall t, In t l -> (g | snd t)) /\ forall d, (d | c) -> (forall t, In t l -> (d | snd t)) -> (d | g).
Proof.
  induction l as [|u l IH]; intros c; cbn [fold_left]; cbv zeta.
  - split; [apply Z.divide_refl|]. split; [intros t []|auto].
  - destruct (IH (Z.gcd c (snd u))) as (A1 & A2 & A3). split; [apply (Z.divide_trans _ _ _ A1), Z.gcd_divide_l|]. split.
    + intros t [<-|Ht]; [apply (Z.divide_trans _ _ _ A1), Z.gcd_divide_r|apply A2, Ht].
    + intros d Hc Hd. apply A3; [apply Z.gcd_greatest; [exact Hc|apply Hd; left; reflexivity]|intros t Ht; apply Hd; right; exact Ht].
Qed.
(** one of the two is a constant *)
Theorem const_gcd_ok (F G : poly) : norm F -> norm G -> F <> [] -> G <> [] -> (exists c, F = [(mono1, c)]) \/ (exists c, G = [(mono1, c)]) ->
  let P := [(mono1, coeff_gcd (F ++ G))] in norm P /\ is_gcd K (graw F) (graw G) (graw P).
Proof.
  intros NF NG Fne Gne H. cbv zeta. destruct (coeff_fold (F ++ G) 0) as (_ & A2 & A3). fold (coeff_gcd (F ++ G)) in A2, A3.
  apply terms_gcd; try assumption.
  - destruct H as [[c ->]|[c ->]]; eauto.
  - apply mok_1.
  - intros E. destruct F as [|t F]; [congruence|]. pose proof (A2 t (or_introl eq_refl)) as X. rewrite E in X. apply Z.divide_0_l in X.
    destruct (nin vo K _ t NF (or_introl eq_refl)) as [_ Y]. apply Y. exact X.
  - intros t Ht. split; [|apply A2, Ht]. intros v. change (zexp mono1 v) with 0. apply (zexp_nonneg vo).
    apply in_app_or in Ht as [Ht|Ht]; [apply (nin vo K F t NF Ht)|apply (nin vo K G t NG Ht)].
  - intros s Hs. destruct H as [[c ->]|[c ->]]; [apply (Hs (mono1, c)); left; reflexivity|].
    apply (Hs (mono1, c)). apply in_or_app. right. left. reflexivity.
  - intros d Hd. apply A3; [apply Z.divide_0_r|exact Hd].
Qed.
End T.
