(** * The resultant computed by the subresultant chain (Resultant.v) is the Sylvester determinant. *)
From Coq Require Import Ring_theory Ring Setoid Morphisms Lia.
From Verif Require Import Prelude Coef Spec SpecProofs SpecOps SpecOpsProofs OrderSpec PairVec PairVecProofs Mono MonoProofs
  MonoStruct MonoStructProofs Heap Poly PolyMulProofs Div PolyDivProofs PolyOps MonoOpsProofs PolyOpsGen PolyOpsProofs PolyOps2Proofs
  Prem PremProofs GcdDom GcdPoly GcdMath GcdHom GcdRep GcdLex ResSpec ResDet ResMath ResChain Resultant.
Local Open Scope Z_scope.

Section RP.
Context {C : Type} (K : coefs C) (HD : domain_ok K) (HG : cgcd_ok K) (HQ : quorem_ok K) (v : var).
Context (compress : poly C -> poly C -> outcome (option (poly C))).
Let HK : ring_ok K := domain_ring K HD.
Local Existing Instance HK.
Add Ring Kring : (ring_laws K HK).
Add Ring Rring : (rring K HK) (setoid (req_equiv K) (rring_ext K HK)).
Notation vo := (vuniv v).
Let Hvo : vorder_ok vo := vuniv_ok v.
Notation S := (lexS vo).
Let HS : monos_ok S (mok vo) sm := lexS_ok vo Hvo.
Notation norm := (normal (mok vo) (lex_gt vo) K).
Notation graw := (graw sm).
Notation poly := (poly C).
Notation rmul := (rmul K). Notation rpow := (rpow K).
Local Infix "==" := (req K) (at level 70).
Notation r0 := (@Spec.r0 C). Notation r1 := (Spec.r1 K).
Notation cf := (cf K v). Notation dl := (dl K v). Notation m1 := (ropp K r1).
Notation free := (vfree K v).
Context (HC : comp_all S (mok vo) sm K compress).
Local Existing Instance rpow_proper.
Local Existing Instance cf_proper.
Local Existing Instance dl_proper.

Lemma top (p : poly) : topp vo v p. Proof. apply (topp_univ _ v _ eq_refl). Qed.
(** degree in v *)
Definition dg (p : poly) : nat := Z.to_nat (p_up_deg v p).
Lemma up_deg_spec p : norm p -> p_up_deg v p = p_degree p v /\ 0 <= p_up_deg v p /\ deg_is K (graw p) v (N.of_nat (dg p)).
Proof.
  intros N. destruct (p_degree_spec vo Hvo S (or_introl eq_refl) K HK p v N) as [A B]. pose proof (p_up_deg_top vo Hvo K v p N (top p)) as E.
  unfold dg. rewrite E. split; [reflexivity|]. split; [exact A|]. replace (N.of_nat (Z.to_nat (p_degree p v))) with (Z.to_N (p_degree p v)) by lia. exact B.
Qed.
Lemma up_eq p : norm p -> p_up_deg v p = Z.of_nat (dg p).
Proof. intros N. destruct (up_deg_spec p N) as (_ & A & _). unfold dg. lia. Qed.
Lemma dg_dl p : norm p -> dl (Datatypes.S (dg p)) (graw p).
Proof. intros N. apply (deg_dl K v), (up_deg_spec p N). Qed.
Lemma dg_lc p : norm p -> p <> [] -> ~ cf (dg p) (graw p) == r0.
Proof.
  intros N Ne. destruct (up_deg_spec p N) as (_ & _ & [H [E|(m & Hm & E)]]).
  - assert (Np : ~ graw p == r0) by (apply (nz_iff vo Hvo K HD); assumption). destruct (not_zero_coef K HD _ Np) as [m Hm].
    apply (cf_nz K HD v _ _ m Hm). specialize (H m Hm). lia.
  - apply (cf_nz K HD v _ _ m Hm E).
Qed.
Lemma dg_unique p n : norm p -> dl (Datatypes.S n) (graw p) -> ~ cf n (graw p) == r0 -> dg p = n.
Proof.
  intros N H Nc. destruct (up_deg_spec p N) as (_ & _ & D). pose proof (cf_deg K HD v n _ H Nc) as D'.
  pose proof (deg_is_unique K _ _ _ _ D D') as U. lia.
Qed.
Lemma dg_le p n : norm p -> dl (Datatypes.S n) (graw p) -> (dg p <= n)%nat.
Proof.
  intros N H. destruct (up_deg_spec p N) as (_ & _ & [_ [E|(m & Hm & E)]]); [lia|]. specialize (H m Hm). lia.
Qed.
Lemma norm0 : norm []. Proof. apply (norm_nil S (mok vo) K). Qed.
Lemma nz p : norm p -> p <> [] -> ~ graw p == r0. Proof. intros N Ne. apply (nz_iff vo Hvo K HD); assumption. Qed.
Lemma nil_of p : norm p -> graw p == r0 -> p = []. Proof. intros N E. destruct p as [|t q]; [reflexivity|]. exfalso. apply (nz _ N); [discriminate|exact E]. Qed.

Lemma lc_ok p : norm p -> norm (lc v p) /\ graw (lc v p) == cf (dg p) (graw p).
Proof.
  intros N. unfold lc. rewrite (leadcoeff_up_spec vo Hvo K v p N (top p)). cbn [fst].
  destruct (up_deg_spec p N) as (E & A & _). rewrite <- E.
  destruct (cls_spec vo Hvo S (or_introl eq_refl) K HK v (p_up_deg v p) p N A) as [N1 R1]. split; [exact N1|]. rewrite R1.
  unfold ResMath.cf, dg. replace (Z.to_N (p_up_deg v p)) with (N.of_nat (Z.to_nat (p_up_deg v p))) by lia. reflexivity.
Qed.
Lemma mul_ok p q : norm p -> norm q -> exists r, p_mul S K compress p q = Ok r /\ norm r /\ graw r == rmul (graw p) (graw q).
Proof. intros Np Nq. apply (p_mul_ok S (mok vo) sm K HS HK HD compress p q); [split; apply HC; assumption|assumption|assumption]. Qed.
Lemma power_ok O p n : norm p -> 0 < n < 2 ^ 63 -> exists r, rpower K v compress O p n = Ok r /\ norm r /\ graw r == rpow (graw p) (Z.to_nat n).
Proof.
  intros N Hn. unfold rpower, pair_vec_power. destruct (Z.eqb_spec n 0); [lia|]. destruct (Z.eqb_spec n 1) as [->|].
  - exists p. split; [reflexivity|]. split; [exact N|]. change (Z.to_nat 1) with 1%nat. cbn [Spec.rpow]. ring.
  - destruct (power_loop_ok S (mok vo) sm K HS HK HD compress HC 64 O p true n) as (P & E & NP & RP); try first [lia|exact N|intros _; lia|intros X; discriminate X].
    exists P. auto.
Qed.
Lemma neg_ok p : norm p -> norm (p_neg K p) /\ graw (p_neg K p) == ropp K (graw p).
Proof. intros N. destruct (negS vo K HK v p N) as (A & B & _). auto. Qed.
Lemma odd_pow n p : (if Z.odd (Z.of_nat n) then ropp K p else p) == rmul (rpow m1 n) p.
Proof.
  induction n as [|n IH]; [cbn [Z.odd Z.of_nat Spec.rpow]; ring|].
  rewrite Nat2Z.inj_succ, Z.odd_succ, <- Z.negb_odd. cbn [Spec.rpow]. transitivity (ropp K (rmul (rpow m1 n) p)); [|ring]. rewrite <- IH.
  destruct (Z.odd (Z.of_nat n)); cbn [negb]; ring.
Qed.
Lemma neg_if_ok n p : norm p -> norm (neg_if K (Z.odd (Z.of_nat n)) p) /\ graw (neg_if K (Z.odd (Z.of_nat n)) p) == rmul (rpow m1 n) (graw p).
Proof.
  intros N. destruct (neg_ok p N) as [N' R']. rewrite <- odd_pow. unfold neg_if. destruct (Z.odd (Z.of_nat n)); [split; assumption|]. split; [exact N|reflexivity].
Qed.
Lemma prem_ok F G : norm F -> norm G -> G <> [] -> (dg G <= dg F)%nat -> Z.of_nat (dg F) < 2 ^ 63 ->
  exists R Q, norm R /\ dl (dg G) (graw R) /\
    rmul (rpow (cf (dg G) (graw G)) (dg F - dg G + 1)) (graw F) == radd (rmul Q (graw G)) (graw R) /\
    exists n0, forall f, (n0 <= f)%nat -> rprem K v compress f F G = Ok R.
Proof.
  intros NF NG Gne L Hb. destruct (up_deg_spec F NF) as (EF & PF & _). destruct (up_deg_spec G NG) as (EG & PG & _). unfold dg in Hb.
  destruct (prem_core_ok vo Hvo K HK HD compress HC v F G true NF NG Gne (top F) (top G) ltac:(intros _; lia)) as (R & T & NR & Q & D & n & Hn & Hn' & X).
  exists R, Q. split; [exact NR|]. specialize (Hn' eq_refl). rewrite <- EF, <- EG in *. unfold dg in *.
  split; [intros m Hm; specialize (D m Hm); lia|]. split; [|exact T].
  unfold ResMath.cf. replace (N.of_nat (Z.to_nat (p_up_deg v G))) with (Z.to_N (p_up_deg v G)) by lia.
  replace (Z.to_nat (p_up_deg v F) - Z.to_nat (p_up_deg v G) + 1)%nat with n by lia. exact X.
Qed.
Lemma pow_mul_ok O p q n : norm p -> norm q -> 0 < n < 2 ^ 63 -> exists r, pow_mul K v compress O p q n = Ok r /\ norm r /\
  graw r == rmul (rpow (graw p) (Z.to_nat n)) (graw q).
Proof.
  intros Np Nq Hn. unfold pow_mul. destruct (Z.ltb_spec n 2) as [L|L].
  - destruct (mul_ok p q Np Nq) as (r & E & N & R). exists r. split; [exact E|]. split; [exact N|]. rewrite R. replace n with 1 by lia. change (Z.to_nat 1) with 1%nat. cbn [Spec.rpow]. ring.
  - destruct (power_ok O p n Np ltac:(lia)) as (T & ET & NT & RT). rewrite ET. cbn [obind]. destruct (mul_ok T q NT Nq) as (r & E & N & R). exists r. split; [exact E|]. split; [exact N|]. rewrite R, RT. reflexivity.
Qed.

(** ** The loop *)
Lemma lc_ne p : norm p -> p <> [] -> lc v p <> [].
Proof. intros N Ne E. destruct (lc_ok p N) as [N' R']. rewrite E in R'. apply (dg_lc p N Ne). rewrite <- R'. reflexivity. Qed.
Lemma nz_ne p : norm p -> ~ graw p == r0 -> p <> []. Proof. intros N H E. subst p. apply H. reflexivity. Qed.

Section Loop.
Context (Sg : nat -> rpoly C).
Definition lstate (j : nat) (Sj1 Sj : poly) : Prop :=
  norm Sj /\ ((j = 0%nat /\ graw Sj == Sg 0%nat) \/ ((1 <= j)%nat /\ norm Sj1 /\ chain K v Sg j (graw Sj1) (graw Sj))).
Lemma chain_j0 A B : chain K v Sg 0 A B -> B == Sg 0%nat.
Proof.
  intros (_ & _ & _ & H). specialize (H 0%nat (le_n _)). cbn [Nat.sub Nat.mul Nat.add Spec.rpow ResSpec.shifts app] in H. rewrite (DP_one K HD) in H.
  change (rmono K [(v, N.of_nat 0)]) with (X K v 0) in H. rewrite (X_0 K HD) in H. rewrite <- H. ring.
Qed.
(** from the chain after a step to the loop state *)
Lemma lstate_of r A B SA SB : (1 <= r)%nat -> chain K v Sg (r - 1) (Sg r) (Sg (r - 1)%nat) -> norm B -> graw B == SB -> SB == Sg (r - 1)%nat ->
  ((2 <= r)%nat -> norm A /\ graw A == SA /\ SA == Sg r) -> lstate (r - 1) A B.
Proof.
  intros Hr H NB EB EB' HA. split; [exact NB|]. destruct (Nat.eq_dec r 1) as [->|Hn].
  - left. split; [reflexivity|]. rewrite EB, EB'. reflexivity.
  - right. split; [lia|]. destruct (HA ltac:(lia)) as (NA & EA & EA'). split; [exact NA|].
    destruct H as (H1 & H2 & H3 & H4). assert (XA : graw A == Sg r) by (rewrite EA, EA'; reflexivity). assert (XB : graw B == Sg (r - 1)%nat) by (rewrite EB, EB'; reflexivity).
    split; [intros m Hm; rewrite (XA m) in Hm; exact (H1 m Hm)|]. split; [intros m Hm; rewrite (XB m) in Hm; exact (H2 m Hm)|].
    assert (XC : cf (r - 1 + 1) (graw A) == cf (r - 1 + 1) (Sg r)) by (apply (cf_proper K HD); exact XA).
    split; [intros X; apply H3; rewrite <- XC; exact X|]. intros i Hi. specialize (H4 i Hi).
    transitivity (rmul (rpow (cf (r - 1 + 1) (Sg r)) (2 * (r - 1 - i))) (Sg i)); [apply (rmul_proper K HK); [rewrite XC; reflexivity|reflexivity]|].
    rewrite H4. apply (DP_eq K HD). apply Forall2_app; apply (shifts_eq K HD); symmetry; assumption.
Qed.
Context (dcompress : poly -> poly -> outcome (option poly)).
Context (HDC : forall F G, norm F -> norm G -> dcomp_good S (mok vo) sm K dcompress F G).
Lemma div_ok F G q : norm F -> norm G -> G <> [] -> graw F == rmul q (graw G) ->
  exists H, norm H /\ graw H == q /\ exists n0, forall f, (n0 <= f)%nat -> rdiv K v dcompress f F G = Ok H.
Proof.
  intros NF NG Gne E. destruct (represent S (mok vo) sm HS K HD (full_mono vo Hvo) q) as (H & NH & EH).
  exists H. split; [exact NH|]. split; [exact EH|].
  apply (p_div_exact S (mok vo) sm K HS HK HD HQ dcompress F G H); try assumption; [apply HDC; assumption|]. rewrite EH. exact E.
Qed.
(** line 183-205 *)
Lemma Sr_ok Sj1 Sj Sr j r q : norm Sj1 -> norm Sj -> Sj1 <> [] -> dg Sj = r -> (r < j)%nat -> Z.of_nat j < 2 ^ 63 ->
  rmul (rpow (cf (dg Sj1) (graw Sj1)) (j - r)) q == rmul (rpow (cf r (graw Sj)) (j - r)) (graw Sj) ->
  exists H, norm H /\ graw H == q /\ exists n0, forall f, (n0 <= f)%nat ->
   (if Z.of_nat j - Z.of_nat r <? 2 then (tmp2 <- p_mul S K compress (lc v Sj) Sj ;; rdiv K v dcompress f tmp2 (lc v Sj1))
    else (P <- rpower K v compress Sr (lc v Sj) (Z.of_nat j - Z.of_nat r) ;; tmp2 <- p_mul S K compress P Sj ;;
          T <- rpower K v compress (lc v Sj) (lc v Sj1) (Z.of_nat j - Z.of_nat r) ;; rdiv K v dcompress f tmp2 T)) = Ok H.
Proof.
  intros N1 Nj Ne Er L Hj E. destruct (lc_ok Sj1 N1) as [NR RR]. destruct (lc_ok Sj Nj) as [Nl Rl]. rewrite Er in Rl.
  destruct (Z.ltb_spec (Z.of_nat j - Z.of_nat r) 2) as [L2|L2].
  - destruct (mul_ok (lc v Sj) Sj Nl Nj) as (t & Et & Nt & Rt). replace (j - r)%nat with 1%nat in E by lia. cbn [Spec.rpow] in E.
    destruct (div_ok t (lc v Sj1) q Nt NR (lc_ne _ N1 Ne)) as (H & NH & RH & n0 & EH).
    + rewrite Rt, Rl, RR. transitivity (rmul (rmul (cf r (graw Sj)) r1) (graw Sj)); [ring|]. rewrite <- E. ring.
    + exists H. split; [exact NH|]. split; [exact RH|]. exists n0. intros f Hf. rewrite Et. cbn [obind]. apply EH, Hf.
  - set (n := Z.of_nat j - Z.of_nat r) in *. replace (j - r)%nat with (Z.to_nat n) in E by lia.
    destruct (power_ok Sr (lc v Sj) n Nl ltac:(lia)) as (P & EP & NP & RP). destruct (mul_ok P Sj NP Nj) as (t & Et & Nt & Rt).
    destruct (power_ok (lc v Sj) (lc v Sj1) n NR ltac:(lia)) as (T & ET & NT & RT).
    assert (Tne : T <> []).
    { apply (nz_ne T NT). rewrite RT, RR. apply (rpow_nz_ K HD HG), (dg_lc Sj1 N1 Ne). }
    destruct (div_ok t T q Nt NT Tne) as (H & NH & RH & n0 & EH).
    + rewrite Rt, RP, RT, Rl, RR, <- E. ring.
    + exists H. split; [exact NH|]. split; [exact RH|]. exists n0. intros f Hf. rewrite EP. cbn [obind]. rewrite Et. cbn [obind]. rewrite ET. cbn [obind]. apply EH, Hf.
Qed.
(** line 211-227 *)
Lemma Sr1_ok Sj1 Sj j r q Cc Q0 : norm Sj1 -> norm Sj -> Sj1 <> [] -> Sj <> [] -> dg Sj = r -> dg Sj1 = (j + 1)%nat -> (r < j)%nat -> Z.of_nat j + 1 < 2 ^ 63 ->
  rprem K v compress Q0 Sj1 Sj = rprem K v compress Q0 Sj1 Sj ->
  norm Cc -> (exists n0, forall f, (n0 <= f)%nat -> rprem K v compress f Sj1 Sj = Ok Cc) ->
  rmul (rpow (cf (j + 1) (graw Sj1)) (j - r + 2)) q == graw Cc ->
  exists H, norm H /\ graw H == q /\ exists n0, forall f, (n0 <= f)%nat ->
    (R2 <- p_mul S K compress (lc v Sj1) (lc v Sj1) ;;
     (if Z.of_nat j - Z.of_nat r <? 2 then
        (T <- p_mul S K compress (lc v Sj1) R2 ;; P <- rprem K v compress f Sj1 Sj ;; rdiv K v dcompress f P T)
      else
        (T <- rpower K v compress [] (lc v Sj1) (Z.of_nat j - Z.of_nat r) ;; R' <- p_mul S K compress R2 T ;; P <- rprem K v compress f Sj1 Sj ;; rdiv K v dcompress f P R'))) = Ok H.
Proof.
  intros N1 Nj Ne1 Ne Er E1 L Hj _ NC [n1 EC] E. destruct (lc_ok Sj1 N1) as [NR RR]. rewrite E1 in RR.
  pose proof (dg_lc Sj1 N1 Ne1) as Na. rewrite E1 in Na. set (a := cf (j + 1) (graw Sj1)) in *.
  destruct (mul_ok _ _ NR NR) as (R2 & E2 & N2 & RR2). rewrite RR in RR2.
  destruct (Z.ltb_spec (Z.of_nat j - Z.of_nat r) 2) as [L2|L2].
  - destruct (mul_ok _ _ NR N2) as (T & ET & NT & RT). rewrite RR, RR2 in RT.
    assert (Tne : T <> []).
    { apply (nz_ne T NT). rewrite RT. intros X. apply (rintegral K HD HG) in X as [X|X]; [contradiction|]. apply (rintegral K HD HG) in X as [X|X]; contradiction. }
    destruct (div_ok Cc T q NC NT Tne) as (H & NH & RH & n0 & EH).
    + rewrite RT, <- E. replace (j - r + 2)%nat with 3%nat by lia. cbn [Spec.rpow]. ring.
    + exists H. split; [exact NH|]. split; [exact RH|]. exists (n0 + n1)%nat. intros f Hf. rewrite E2. cbn [obind]. rewrite ET. cbn [obind]. rewrite EC by lia. cbn [obind]. apply EH. lia.
  - set (n := Z.of_nat j - Z.of_nat r) in *. destruct (power_ok [] (lc v Sj1) n NR ltac:(lia)) as (T & ET & NT & RT). rewrite RR in RT.
    destruct (mul_ok _ _ N2 NT) as (R' & ER' & NR' & RR'). rewrite RR2, RT in RR'.
    assert (Tne : R' <> []).
    { apply (nz_ne _ NR'). rewrite RR'. intros X. apply (rintegral K HD HG) in X as [X|X]; [|revert X; apply (rpow_nz_ K HD HG), Na]. apply (rintegral K HD HG) in X as [X|X]; contradiction. }
    destruct (div_ok Cc R' q NC NR' Tne) as (H & NH & RH & n0 & EH).
    + rewrite RR', <- E. replace (j - r + 2)%nat with (2 + Z.to_nat n)%nat by lia. rewrite (rpow_add K HK). cbn [Spec.rpow]. ring.
    + exists H. split; [exact NH|]. split; [exact RH|]. exists (n0 + n1)%nat. intros f Hf. rewrite E2. cbn [obind]. rewrite ET. cbn [obind]. rewrite ER'. cbn [obind]. rewrite EC by lia. cbn [obind]. apply EH. lia.
Qed.

Theorem loop_ok j : forall Sj1 Sj Sr, lstate j Sj1 Sj -> Z.of_nat j + 1 < 2 ^ 63 ->
  exists O, norm O /\ graw O == Sg 0%nat /\ exists n0, forall fuel f, (n0 <= fuel)%nat -> (n0 <= f)%nat -> res_loop K v compress dcompress fuel f Sj1 Sj Sr (Z.of_nat j) = Ok O.
Proof.
  induction j as [j IH] using (well_founded_induction lt_wf). intros Sj1 Sj Sr [Nj [[-> E0]|(Hj & N1 & Hc)]] Hb.
  - exists Sj. split; [exact Nj|]. split; [exact E0|]. exists 0%nat. intros [|fuel] f _ _; reflexivity.
  - pose proof Hc as (HA & HB & Na & _).
    assert (D1 : dg Sj1 = (j + 1)%nat) by (apply (dg_unique Sj1 (j + 1) N1); [replace (Datatypes.S (j + 1)) with (j + 2)%nat by lia; exact HA|exact Na]).
    assert (Ne1 : Sj1 <> []).
    { intros E. apply Na. rewrite E. apply (cf_dl K HD v 0); [apply dl_0|lia]. }
    set (r := dg Sj). assert (Hr : p_up_deg v Sj = Z.of_nat r) by apply (up_eq Sj Nj).
    assert (Lr : (r <= j)%nat) by (apply (dg_le Sj j Nj HB)).
    destruct (Nat.eq_dec (length Sj) 0) as [Z0|Z0].
    + (* S_j = 0 *)
      apply length_zero_iff_nil in Z0. assert (Er : r = 0%nat) by (unfold r; rewrite Z0; reflexivity).
      destruct (Sr_ok Sj1 Sj Sr j r r0 N1 Nj Ne1 eq_refl ltac:(lia) ltac:(lia)) as (H & NH & RH & n0 & EH).
      { rewrite Z0. change (graw (@nil (mono * C))) with r0. ring. }
      exists H. split; [exact NH|]. split; [rewrite RH; symmetry; apply (chain_zero K HD HG v Sg j _ _ Hc); [rewrite Z0; reflexivity|lia]|].
      exists (Datatypes.S n0). intros [|fuel] f Hf1 Hf2; [lia|]. cbn [res_loop]. destruct (Z.gtb_spec (Z.of_nat j) 0); [|lia].
      rewrite Hr. destruct (Z.ltb_spec (Z.of_nat r) 0); [lia|]. destruct (Z.ltb_spec (Z.of_nat r) (Z.of_nat j)); [|lia].
      destruct (Z.eqb_spec (Z.of_nat r) 1); [lia|]. cbn [negb]. rewrite (EH f ltac:(lia)). cbn [obind].
      destruct (Z.eqb_spec (Z.of_nat r) 0); [reflexivity|lia].
    + assert (Ne : Sj <> []) by (intros E; apply Z0; rewrite E; reflexivity).
      pose proof (dg_dl Sj Nj) as HB'. pose proof (dg_lc Sj Nj Ne) as Nb. fold r in HB', Nb.
      set (d := (j - r)%nat). assert (Ej : j = (d + r)%nat) by lia.
      destruct (prem_ok Sj1 Sj N1 Nj Ne ltac:(fold r; lia) ltac:(lia)) as (Cc & Q & NC & DC & EQ & TC). fold r in DC, EQ.
      rewrite D1 in EQ. replace (j + 1 - r + 1)%nat with (d + 2)%nat in EQ by lia.
      pose proof (chain_KK K HD HG v Sg j (graw Sj1) (graw Sj) r d Hc Ej HB') as KKe.
      set (a := cf (j + 1) (graw Sj1)) in *.
      assert (HA' : dl (d + r + 2) (graw Sj1)) by (rewrite <- Ej; exact HA).
      assert (Fa : free a) by apply (cf_free K HD).
      pose proof (step_r K HD v (graw Sj1) (graw Sj) r d a d 2 Sg HB' KKe) as SR.
      destruct (Nat.eq_dec r 0) as [r0e|rne].
      * (* r = 0 < j *)
        destruct (Sr_ok Sj1 Sj Sr j r (Sg r) N1 Nj Ne1 eq_refl ltac:(lia) ltac:(lia)) as (H & NH & RH & n0 & EH).
        { rewrite D1. exact SR. }
        exists H. split; [exact NH|]. split; [rewrite RH, r0e; reflexivity|].
        exists (Datatypes.S n0). intros [|fuel] f Hf1 Hf2; [lia|]. cbn [res_loop]. destruct (Z.gtb_spec (Z.of_nat j) 0); [|lia].
        rewrite Hr. destruct (Z.ltb_spec (Z.of_nat r) 0); [lia|]. destruct (Z.ltb_spec (Z.of_nat r) (Z.of_nat j)); [|lia].
        destruct (Z.eqb_spec (Z.of_nat r) 1); [lia|]. cbn [negb]. rewrite (EH f ltac:(lia)). cbn [obind].
        destruct (Z.eqb_spec (Z.of_nat r) 0); [reflexivity|lia].
      * assert (Hr1 : (1 <= r)%nat) by lia.
        pose proof (step_chain K HD HG v (graw Sj1) (graw Sj) Q (graw Cc) r d a d 2 Sg HA' HB' Nb EQ DC Fa Na KKe Hr1) as NX.
        pose proof (step_pred K HD HG v (graw Sj1) (graw Sj) Q (graw Cc) r d a d 2 Sg HA' HB' Nb EQ DC KKe Hr1) as SP.
        destruct (Nat.eq_dec r j) as [rj|rj].
        -- (* r = j *)
           assert (d0 : d = 0%nat) by lia. rewrite d0 in SP, SR. cbn [Nat.add Spec.rpow] in SP, SR.
           destruct (lc_ok Sj1 N1) as [NR RR]. rewrite D1 in RR. fold a in RR.
           destruct (mul_ok _ _ NR NR) as (R2 & E2 & N2 & RR2). rewrite RR in RR2.
           assert (Tne : R2 <> []).
           { apply (nz_ne _ N2). rewrite RR2. intros X. apply (rintegral K HD HG) in X as [X|X]; contradiction. }
           destruct (div_ok Cc R2 (Sg (r - 1)%nat) NC N2 Tne) as (T & NT & RT & n0 & ET).
           { rewrite RR2. transitivity (rmul r1 (graw Cc)); [ring|]. rewrite <- SP. ring. }
           destruct TC as [n1 TC].
           destruct (IH (j - 1)%nat ltac:(lia) Sj T Sr) as (O & NO & EO & n2 & TO); [|lia|].
           { rewrite <- rj in *. apply (lstate_of r Sj T (graw Sj) (graw T)); try assumption; [reflexivity|]. intros _. split; [exact Nj|]. split; [reflexivity|].
             transitivity (rmul r1 (graw Sj)); [ring|]. rewrite <- SR. ring. }
           exists O. split; [exact NO|]. split; [exact EO|]. exists (Datatypes.S (n0 + n1 + n2)). intros [|fuel] f Hf1 Hf2; [lia|].
           cbn [res_loop]. destruct (Z.gtb_spec (Z.of_nat j) 0); [|lia]. rewrite Hr. destruct (Z.ltb_spec (Z.of_nat r) 0); [lia|]. destruct (Z.ltb_spec (Z.of_nat r) (Z.of_nat j)); [lia|].
           rewrite (TC f ltac:(lia)). cbn [obind]. rewrite E2. cbn [obind]. rewrite (ET f ltac:(lia)). cbn [obind].
           replace (Z.of_nat j - 1) with (Z.of_nat (j - 1)) by lia. apply TO; lia.
        -- (* 1 <= r < j *)
           assert (Lrj : (r < j)%nat) by lia.
           destruct (Sr1_ok Sj1 Sj j r (rmul (rpow m1 d) (Sg (r - 1)%nat)) Cc 0 N1 Nj Ne1 Ne eq_refl D1 Lrj Hb eq_refl NC TC) as (T & NT & RT & n0 & ET).
           { fold a. fold d. transitivity (rmul (rpow m1 d) (rmul (rpow a (d + 2)) (Sg (r - 1)%nat))); [ring|]. rewrite SP.
             transitivity (rmul (rpow m1 (d + d)) (graw Cc)); [rewrite (rpow_add K HK); ring|]. rewrite (rpow_m1_even K HD). ring. }
           destruct (neg_if_ok d T NT) as [NT' RT'].
           assert (RT'' : graw (neg_if K (Z.odd (Z.of_nat d)) T) == Sg (r - 1)%nat).
           { rewrite RT', RT. transitivity (rmul (rpow m1 (d + d)) (Sg (r - 1)%nat)); [rewrite (rpow_add K HK); ring|]. rewrite (rpow_m1_even K HD). ring. }
           assert (SRx : exists Sr', ((2 <= r)%nat -> norm Sr' /\ graw Sr' == Sg r) /\ exists n1, forall f, (n1 <= f)%nat ->
             (if negb (Z.of_nat r =? 1) then
               (if Z.of_nat j - Z.of_nat r <? 2 then (tmp2 <- p_mul S K compress (lc v Sj) Sj ;; rdiv K v dcompress f tmp2 (lc v Sj1))
                else (P <- rpower K v compress Sr (lc v Sj) (Z.of_nat j - Z.of_nat r) ;; tmp2 <- p_mul S K compress P Sj ;;
                  T <- rpower K v compress (lc v Sj) (lc v Sj1) (Z.of_nat j - Z.of_nat r) ;; rdiv K v dcompress f tmp2 T))
              else Ok Sr) = Ok Sr').
           { destruct (Z.eqb_spec (Z.of_nat r) 1) as [e|e]; cbn [negb].
             - exists Sr. split; [intros X; lia|]. exists 0%nat. reflexivity.
             - destruct (Sr_ok Sj1 Sj Sr j r (Sg r) N1 Nj Ne1 eq_refl Lrj ltac:(lia)) as (H & NH & RH & n1 & EH); [rewrite D1; exact SR|].
               exists H. split; [auto|]. exists n1. exact EH. }
           destruct SRx as (Sr' & HSr & n1 & ESr).
           destruct (IH (r - 1)%nat ltac:(lia) Sr' (neg_if K (Z.odd (Z.of_nat d)) T) Sj1) as (O & NO & EO & n2 & TO); [|lia|].
           { apply (lstate_of r Sr' _ (graw Sr') (graw (neg_if K (Z.odd (Z.of_nat d)) T))); try assumption; [reflexivity|]. intros H2. destruct (HSr H2) as [A B]. split; [exact A|]. split; [reflexivity|exact B]. }
           exists O. split; [exact NO|]. split; [exact EO|]. exists (Datatypes.S (n0 + n1 + n2)). intros [|fuel] f Hf1 Hf2; [lia|].
           cbn [res_loop]. destruct (Z.gtb_spec (Z.of_nat j) 0); [|lia]. rewrite Hr. destruct (Z.ltb_spec (Z.of_nat r) 0); [lia|]. destruct (Z.ltb_spec (Z.of_nat r) (Z.of_nat j)); [|lia].
           rewrite (ESr f ltac:(lia)). cbn [obind]. destruct (Z.eqb_spec (Z.of_nat r) 0); [lia|].
           specialize (ET f ltac:(lia)). destruct (p_mul S K compress (lc v Sj1) (lc v Sj1)) as [R2| | |]; try discriminate. cbn [obind] in ET |- *. rewrite ET. cbn [obind].
           replace (Z.of_nat j - Z.of_nat r) with (Z.of_nat d) by lia. replace (Z.of_nat r - 1) with (Z.of_nat (r - 1)) by lia. apply TO; lia.
Qed.
End Loop.
End RP.
