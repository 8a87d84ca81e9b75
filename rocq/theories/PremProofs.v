(** * Proofs about pseudo-division (Prem.v). *)
From Coq Require Import Ring Setoid Morphisms Sorting.Sorted Permutation.
From Verif Require Import Prelude Coef Spec SpecProofs SpecOps SpecOpsProofs OrderSpec PairVec PairVecProofs Mono MonoProofs
  MonoStruct MonoStructProofs Poly PolyMulProofs PolyOps MonoOpsProofs PolyOpsGen PolyOpsProofs PolyOps2Proofs ConvertProofs Prem.
Local Open Scope Z_scope.

Section P.
Context (vo : vorder) (Hvo : vorder_ok vo) {C : Type} (K : coefs C) (HK : ring_ok K) (HD : domain_ok K).
Context (compress : poly C -> poly C -> outcome (option (poly C))).
Add Ring Kring : (ring_laws K HK).
Add Ring Rring : (rring K HK) (setoid (req_equiv K) (rring_ext K HK)).
Notation S := (lexS vo).
Notation gt := (lex_gt vo).
Notation norm := (normal (mok vo) gt K).
Notation graw := (graw sm).
Notation poly := (poly C).
Let HS := lexS_ok vo Hvo.
Context (HC : comp_all S (mok vo) sm K compress).
Variable v : var.

(** All terms have [v] as first variable (or none before it), with exponent of [v] between lo and hi. *)
Definition inD (lo hi : Z) (p : poly) : Prop :=
  Forall (fun t => topm vo v (fst t) /\ lo <= zexp (fst t) v <= hi) p.
Lemma inD_weak lo hi lo' hi' p : lo' <= lo -> hi <= hi' -> inD lo hi p -> inD lo' hi' p.
Proof. intros A B H. eapply Forall_impl; [|exact H]. cbn beta. intros t [T L]. split; [exact T|lia]. Qed.
Lemma inD_topp lo hi p : inD lo hi p -> topp vo v p.
Proof. intros H. eapply Forall_impl; [|exact H]. cbn beta. tauto. Qed.
Lemma inD_app lo hi p q : inD lo hi (p ++ q) <-> inD lo hi p /\ inD lo hi q.
Proof. apply Forall_app. Qed.

Lemma term_of p s : norm p -> coef K (graw p) s <> c0 K -> exists t, In t p /\ mok vo (fst t) /\ forall w, Z.of_N (exp s w) = zexp (fst t) w.
Proof.
  intros N H. apply (coef_in sm K) in H as (t & Hin & E). exists t. split; [exact Hin|].
  destruct (norm_in S (mok vo) K p t N Hin) as [O _]. split; [exact O|]. intros w. rewrite <- (E w), (exp_sm_mok vo _ w O).
  apply Z2N.id, (zexp_nonneg vo), O.
Qed.
Lemma in_supp p t : norm p -> In t p -> mok vo (fst t) /\ coef K (graw p) (sm (fst t)) <> c0 K /\ forall w, Z.of_N (exp (sm (fst t)) w) = zexp (fst t) w.
Proof.
  intros N Hin. destruct (norm_in S (mok vo) K p t N Hin) as [O Z]. split; [exact O|]. split.
  - rewrite (in_coef S (mok vo) sm K HS HK p t (proj1 N) (proj1 (proj2 N)) Hin). exact Z.
  - intros w. rewrite (exp_sm_mok vo _ w O). apply Z2N.id, (zexp_nonneg vo), O.
Qed.

Lemma mulS p q : norm p -> norm q -> exists r, p_mul S K compress p q = Ok r /\ norm r /\
  req K (graw r) (rmul K (graw p) (graw q)) /\
  (forall a b c d, inD a b p -> inD c d q -> inD (a + c) (b + d) r).
Proof.
  intros Np Nq. destruct (p_mul_ok S (mok vo) sm K HS HK HD compress p q) as (r & E & Nr & R); [split; apply HC; assumption|assumption|assumption|].
  exists r. split; [exact E|]. split; [exact Nr|]. split; [exact R|]. intros a b c d Hp Hq. apply Forall_forall. intros t Ht.
  destruct (in_supp r t Nr Ht) as (O & Z & X). rewrite (R (sm (fst t))) in Z.
  apply (coef_mul_supp K HK) in Z as (s1 & s2 & H1 & H2 & E12).
  destruct (term_of p s1 Np H1) as (t1 & I1 & O1 & X1). destruct (term_of q s2 Nq H2) as (t2 & I2 & O2 & X2).
  unfold inD in *. rewrite Forall_forall in Hp, Hq. destruct (Hp t1 I1) as [T1 L1]. destruct (Hq t2 I2) as [T2 L2].
  assert (Y : forall w, zexp (fst t) w = zexp (fst t1) w + zexp (fst t2) w).
  { intros w. rewrite <- X, <- X1, <- X2, <- (E12 w), exp_app. lia. }
  split.
  - apply (topm_of vo Hvo); [exact O|]. intros w Hw. rewrite Y in Hw.
    pose proof (zexp_nonneg vo (fst t1) w O1). pose proof (zexp_nonneg vo (fst t2) w O2).
    destruct (Z.eq_dec (zexp (fst t1) w) 0); [apply (topm_keys vo Hvo v (fst t2) w O2 T2); lia|apply (topm_keys vo Hvo v (fst t1) w O1 T1); lia].
  - rewrite Y. lia.
Qed.
Lemma subS p q : norm p -> norm q -> norm (p_sub S K p q) /\ req K (graw (p_sub S K p q)) (rsub K (graw p) (graw q)) /\
  (forall a b, inD a b p -> inD a b q -> inD a b (p_sub S K p q)).
Proof.
  intros Np Nq. pose proof (p_sub_normal S (mok vo) sm K HS HK p q Np Nq) as N. pose proof (p_sub_req S (mok vo) sm K HS HK p q) as R.
  split; [exact N|]. split; [exact R|]. intros a b Hp Hq. apply Forall_forall. intros t Ht.
  destruct (in_supp _ t N Ht) as (O & Z & X). rewrite (R (sm (fst t))) in Z. unfold inD in *. rewrite Forall_forall in Hp, Hq.
  apply (coef_sub_supp K HK) in Z as [Z|Z].
  - destruct (term_of p _ Np Z) as (t1 & I1 & O1 & X1). destruct (Hp t1 I1) as [T1 L1].
    assert (fst t = fst t1) as -> by (apply (mok_ext vo Hvo); [exact O|exact O1|intros w; rewrite <- X, <- X1; reflexivity]). auto.
  - destruct (term_of q _ Nq Z) as (t1 & I1 & O1 & X1). destruct (Hq t1 I1) as [T1 L1].
    assert (fst t = fst t1) as -> by (apply (mok_ext vo Hvo); [exact O|exact O1|intros w; rewrite <- X, <- X1; reflexivity]). auto.
Qed.
Lemma negS p : norm p -> norm (p_neg K p) /\ req K (graw (p_neg K p)) (ropp K (graw p)) /\ (forall a b, inD a b p -> inD a b (p_neg K p)).
Proof.
  intros N. split; [apply (p_neg_normal S (mok vo) K HK), N|]. split; [apply (p_neg_req sm K)|].
  intros a b H. unfold inD, p_neg, pv_negate in *. rewrite Forall_map. exact H.
Qed.

(** ** Splitting off the leading part *)
Lemma first_eq m d : mok vo m -> topm vo v m -> 0 < d ->
  N.eqb (mfirst_var m) v && (mfirst_deg m =? d) = (zexp m v =? d).
Proof.
  intros O T Hd. unfold mfirst_var, mfirst_deg.
  destruct (topm_shape vo Hvo v m O T) as [[[E|(w & e & l & E & Hw)] Z]|(e & l & E & Ee & P)]; rewrite E.
  - rewrite Z. destruct (Z.eqb_spec 0 d); [lia|]. rewrite andb_false_r. reflexivity.
  - rewrite Z. destruct (Z.eqb_spec 0 d); [lia|]. destruct (N.eqb_spec w v) as [e0|_]; [|reflexivity].
    subst w. rewrite (vo_irrefl vo Hvo) in Hw. discriminate.
  - rewrite N.eqb_refl, Ee. reflexivity.
Qed.
Lemma split_lead_spec d p : norm p -> inD 0 d p -> 0 < d ->
  let '(a, b) := split_lead v d p in p = a ++ b /\ inD d d a /\ inD 0 (d - 1) b.
Proof.
  intros N H Hd. induction p as [|t p IH]; [repeat split; constructor|]. cbn [split_lead].
  pose proof (Forall_inv H) as [T L]. pose proof (Forall_inv_tail H) as Hp.
  destruct (norm_in S (mok vo) K _ t N (or_introl eq_refl)) as [O _]. rewrite (first_eq (fst t) d O T Hd).
  destruct (Z.eqb_spec (zexp (fst t) v) d) as [E|E].
  - specialize (IH (norm_tail vo K t p N) Hp). destruct (split_lead v d p) as [a b]. destruct IH as (-> & A & B).
    split; [reflexivity|]. split; [|exact B]. constructor; [split; [exact T|lia]|exact A].
  - split; [reflexivity|]. split; [constructor|]. destruct (topp_head vo Hvo K v t p N T) as [T' L'].
    unfold inD, topp in *. rewrite Forall_forall in *. intros u Hu. split; [apply T', Hu|]. specialize (L' u Hu). specialize (H u Hu). cbv beta in L', H. lia.
Qed.
Lemma set_deg_spec k d a : norm a -> inD d d a -> 0 <= k <= d ->
  norm (set_deg vo v k a) /\ inD k k (set_deg vo v k a) /\
  req K (graw a) (rmul K (graw (set_deg vo v k a)) (rmono K [(v, Z.to_N (d - k))])).
Proof.
  intros N H Hk. unfold set_deg.
  assert (X : forall t, In t a -> mok vo (fst t) /\ topm vo v (fst t) /\ zexp (fst t) v = d /\ mok vo (change_var_deg vo (fst t) v k) /\
     forall w, zexp (change_var_deg vo (fst t) v k) w = if N.eqb w v then k else zexp (fst t) w).
  { intros t Ht. destruct (norm_in S (mok vo) K _ t N Ht) as [O _]. unfold inD in H. rewrite Forall_forall in H. destruct (H t Ht) as [T L].
    split; [exact O|]. split; [exact T|]. split; [lia|]. apply (change_var_deg_spec vo Hvo); [exact O|lia]. }
  split; [|split].
  - apply (norm_map_cancel S (mok vo) sm K HS (fun t => change_var_deg vo (fst t) v k) snd (umono v (d - k))).
    + apply (umono_spec vo). lia.
    + intros t Ht. destruct (X t Ht) as (O & T & E & O' & Y). split; [exact O'|].
      apply (split_var_eq vo Hvo); [exact O|exact O'|lia|]. intros w. rewrite Y. destruct (N.eqb w v); lia.
    + intros t Ht. apply (norm_in S (mok vo) K _ t N Ht).
    + exact N.
  - unfold inD. rewrite Forall_map, Forall_forall. intros t Ht. destruct (X t Ht) as (O & T & E & O' & Y). cbn [fst]. split.
    + apply (topm_of vo Hvo); [exact O'|]. intros w Hw. rewrite Y in Hw. destruct (N.eqb_spec w v) as [e0|n]; [left; exact e0|].
      apply (topm_keys vo Hvo v (fst t) w O T Hw).
    + rewrite Y, N.eqb_refl. lia.
  - intros s. rewrite (coef_shift K HK).
    destruct (N.leb_spec (Z.to_N (d - k)) (exp s v)) as [L|L].
    + clear H. induction a as [|[m c] a IH]; [reflexivity|]. destruct (X (m, c) (or_introl eq_refl)) as (O & T & E & O' & Y). cbn [fst snd] in *.
      specialize (IH (norm_tail vo K _ a N) (fun t Ht => X t (or_intror Ht))). cbn [map fst snd].
      change (graw ((m, c) :: a)) with ((sm m, c) :: graw a).
      change (graw ((change_var_deg vo m v k, c) :: map (fun t : mono * C => (change_var_deg vo (fst t) v k, snd t)) a))
        with ((sm (change_var_deg vo m v k), c) :: graw (map (fun t : mono * C => (change_var_deg vo (fst t) v k, snd t)) a)).
      rewrite !(coef_cons K HK), IH. f_equal.
      destruct (meqb_spec (sm m) s) as [A|A], (meqb_spec (sm (change_var_deg vo m v k)) ((v, exp s v - Z.to_N (d - k)) :: mdrop v s)%N) as [B|B]; try reflexivity; exfalso.
      * apply B. intros w. rewrite (exp_sm_mok vo _ w O'), Y. cbn [exp]. rewrite exp_mdrop, <- (A w), <- (A v), !(exp_sm_mok vo _ _ O).
        rewrite (N.eqb_sym v w). destruct (N.eqb_spec w v) as [e0|n]; [subst w; lia|lia].
      * apply A. intros w. specialize (B w). rewrite (exp_sm_mok vo _ w O'), Y in B. cbn [exp] in B. rewrite exp_mdrop in B.
        rewrite (N.eqb_sym v w) in B. rewrite (exp_sm_mok vo _ w O). destruct (N.eqb_spec w v) as [e0|n]; [subst w; lia|lia].
    + destruct (c0_dec K HK (coef K (graw a) s)) as [E|E]; [exact E|]. exfalso. destruct (term_of a s N E) as (t & Ht & O & Z).
      destruct (X t Ht) as (_ & _ & E' & _). specialize (Z v). lia.
Qed.
Lemma norm_parts p q : norm (p ++ q) -> norm p /\ norm q.
Proof. intros N. apply (norm_app S (mok vo) K) in N. tauto. Qed.

(** ** The divisor F = F0*v^f + F_ *)
Section Step.
Variables (F0 F_ : poly) (f : Z).
Hypothesis (Hf : 0 < f) (N0 : norm F0) (N_ : norm F_) (D0 : inD 0 0 F0) (D_ : inD 0 (f - 1) F_).
Notation Fs := (radd (rmul K (graw F0) (rmono K [(v, Z.to_N f)])) (graw F_)).

Lemma step_ok g0 G g : norm (g0 :: G) -> topm vo v (fst g0) -> g = zexp (fst g0) v -> f <= g ->
  exists Ot G1, prem_step K vo compress v F0 f F_ (g0 :: G) = Ok (Ot, G1) /\ norm Ot /\ norm G1 /\
    inD 0 (g - 1) Ot /\ inD (g - f) (g - f) G1 /\
    req K (rmul K (graw F0) (graw (g0 :: G))) (radd (rmul K (graw G1) Fs) (graw Ot)).
Proof.
  intros N T Hg Hfg. unfold prem_step.
  assert (Eg : mfirst_deg (fst g0) = g).
  { destruct (norm_in S (mok vo) K _ g0 N (or_introl eq_refl)) as [O _]. unfold mfirst_deg.
    destruct (topm_shape vo Hvo v (fst g0) O T) as [[_ Z]|(e & l & E & Ee & P)]; [lia|]. rewrite E. lia. }
  assert (HG : inD 0 g (g0 :: G)).
  { destruct (topp_head vo Hvo K v g0 G N T) as [T' L']. unfold inD, topp in *. rewrite Forall_forall in *. intros u Hu.
    split; [apply T', Hu|]. specialize (L' u Hu). cbv beta in L'. destruct (norm_in S (mok vo) K _ u N Hu) as [O _].
    pose proof (zexp_nonneg vo (fst u) v O). lia. }
  rewrite Eg. pose proof (split_lead_spec g (g0 :: G) N HG ltac:(lia)) as SP. destruct (split_lead v g (g0 :: G)) as [GL G2].
  destruct SP as (EG & DL & D2). rewrite EG in N. destruct (norm_parts GL G2 N) as [NL N2].
  destruct (set_deg_spec (g - f) g GL NL DL ltac:(lia)) as (N1 & D1 & R1). set (G1 := set_deg vo v (g - f) GL) in *.
  replace (g - (g - f)) with f in R1 by lia.
  destruct (mulS G1 F_ N1 N_) as (F1 & E1 & NF1 & RF1 & DF1). rewrite E1. cbn [obind].
  specialize (DF1 _ _ _ _ D1 D_). apply (inD_weak _ _ 0 (g - 1)) in DF1; [|lia|lia].
  assert (RG : req K (graw (g0 :: G)) (radd (rmul K (graw G1) (rmono K [(v, Z.to_N f)])) (graw G2))).
  { rewrite EG, (graw_app sm). transitivity (radd (graw GL) (graw G2)); [reflexivity|]. rewrite R1. reflexivity. }
  destruct G2 as [|u G2].
  - destruct (negS F1 NF1) as (NN & RN & DN). exists (p_neg K F1), G1. split; [reflexivity|]. split; [exact NN|]. split; [exact N1|].
    split; [apply DN, DF1|]. split; [exact D1|]. rewrite RG, RN, RF1. change (graw []) with (@r0 C). ring.
  - destruct (mulS (u :: G2) F0 N2 N0) as (O1 & EO1 & NO1 & RO1 & DO1). rewrite EO1. cbn [obind].
    specialize (DO1 _ _ _ _ D2 D0). apply (inD_weak _ _ 0 (g - 1)) in DO1; [|lia|lia].
    destruct (subS O1 F1 NO1 NF1) as (NS & RS & DS). exists (p_sub S K O1 F1), G1. split; [reflexivity|]. split; [exact NS|]. split; [exact N1|].
    split; [apply DS; assumption|]. split; [exact D1|]. rewrite RG, RS, RO1, RF1. ring.
Qed.

(** the loop test *)
Lemma loop_test O h : norm O -> inD 0 h O ->
  (N.eqb (first_var O) v && (first_deg O >=? f) = true /\ exists t r, O = t :: r /\ topm vo v (fst t) /\ f <= zexp (fst t) v <= h) \/
  (N.eqb (first_var O) v && (first_deg O >=? f) = false /\ inD 0 (f - 1) O).
Proof.
  intros N H. destruct O as [|t r].
  - right. split; [|constructor]. cbn [first_deg]. destruct (Z.geb_spec 0 f); [lia|]. apply andb_false_r.
  - pose proof (Forall_inv H) as [T L]. destruct (norm_in S (mok vo) K _ t N (or_introl eq_refl)) as [O _].
    cbn [first_var first_deg]. unfold mfirst_var, mfirst_deg.
    assert (G : zexp (fst t) v < f -> inD 0 (f - 1) (t :: r)).
    { intros Lt. destruct (topp_head vo Hvo K v t r N T) as [T' L']. unfold inD, topp in *. rewrite Forall_forall in *. intros u Hu.
      split; [apply T', Hu|]. specialize (L' u Hu). specialize (H u Hu). cbv beta in L', H. lia. }
    destruct (topm_shape vo Hvo v (fst t) O T) as [[[E|(w & e & l & E & Hw)] Z]|(e & l & E & Ee & P)]; rewrite E.
    + right. split; [|apply G; lia]. destruct (Z.geb_spec 0 f); [lia|]. apply andb_false_r.
    + right. split; [|apply G; lia]. destruct (N.eqb_spec w v) as [e0|_]; [|reflexivity]. subst w. rewrite (vo_irrefl vo Hvo) in Hw. discriminate.
    + rewrite N.eqb_refl. cbn [andb]. destruct (Z.geb_spec e f) as [L1|L1].
      * left. split; [reflexivity|]. exists t, r. split; [reflexivity|]. split; [exact T|]. lia.
      * right. split; [reflexivity|]. apply G. lia.
Qed.

Lemma loop_ok (Gs : rpoly C) g fuel : forall O Qo Qs d h n,
  norm O -> inD 0 h O -> h < f + Z.of_nat fuel -> h + Z.of_nat n <= g -> Z.of_nat n <= g - f + 1 -> d = g - f + 1 - Z.of_nat n ->
  req K (rmul K (rpow K (graw F0) n) Gs) (radd (rmul K Qs Fs) (graw O)) ->
  match Qo with None => True | Some Q => norm Q /\ inD (h + 1 - f) (g - f) Q /\ req K (graw Q) Qs end ->
  exists O' Qo' Qs' n', prem_loop K vo compress fuel v F0 f F_ O Qo d = Ok (O', Qo', g - f + 1 - Z.of_nat n') /\
    norm O' /\ inD 0 (f - 1) O' /\ Z.of_nat n' <= g - f + 1 /\
    req K (rmul K (rpow K (graw F0) n') Gs) (radd (rmul K Qs' Fs) (graw O')) /\
    match Qo with None => Qo' = None | Some _ => exists Q', Qo' = Some Q' /\ norm Q' /\ req K (graw Q') Qs' end.
Proof.
  induction fuel as [|fuel IH]; intros O Qo Qs d h n N H Hfu Hn Hn' Hd R HQ; cbn [prem_loop].
  - destruct (loop_test O h N H) as [[-> (t & r & _ & _ & L)]|[-> D]]; [lia|].
    exists O, Qo, Qs, n. subst d. split; [reflexivity|]. repeat (split; [assumption|]). destruct Qo as [Q|]; [|reflexivity].
    exists Q. destruct HQ as (A & _ & B). auto.
  - destruct (loop_test O h N H) as [[-> (t & r & EO & T & L)]|[-> D]].
    2:{ exists O, Qo, Qs, n. subst d. split; [reflexivity|]. repeat (split; [assumption|]). destruct Qo as [Q|]; [|reflexivity].
        exists Q. destruct HQ as (A & _ & B). auto. }
    subst O. destruct (step_ok t r (zexp (fst t) v) N T eq_refl) as (O' & G1 & ES & NO' & NG1 & DO' & DG1 & RS); [lia|].
    rewrite ES. cbn [obind]. set (g' := zexp (fst t) v) in *.
    assert (RR : req K (rmul K (rpow K (graw F0) (Datatypes.S n)) Gs) (radd (rmul K (radd (rmul K (graw F0) Qs) (graw G1)) Fs) (graw O'))).
    { cbn [rpow]. transitivity (rmul K (graw F0) (rmul K (rpow K (graw F0) n) Gs)); [ring|]. rewrite R.
      transitivity (radd (rmul K (rmul K (graw F0) Qs) Fs) (rmul K (graw F0) (graw (t :: r)))); [ring|]. rewrite RS. ring. }
    destruct Qo as [Q|].
    + destruct HQ as (NQ & DQ & RQ). destruct (mulS F0 Q N0 NQ) as (T2 & ET & NT & RT & DT). rewrite ET. cbn [obind].
      specialize (DT _ _ _ _ D0 DQ). rewrite !Z.add_0_l in DT.
      destruct (IH O' (Some (T2 ++ G1)) (radd (rmul K (graw F0) Qs) (graw G1)) (d - 1) (g' - 1) (Datatypes.S n)) as (O2 & Qo2 & Qs2 & n2 & E2 & X);
        [assumption|assumption|lia|lia|lia|lia|exact RR| |exists O2, Qo2, Qs2, n2; split; [exact E2|exact X]].
      split; [|split].
      * apply (norm_app S (mok vo) K). split; [exact NT|]. split; [exact NG1|]. apply Forall_forall. intros a Ha. apply Forall_forall. intros b Hb.
        unfold inD in DT, DG1. rewrite Forall_forall in DT, DG1. destruct (DT a Ha) as [Ta La]. destruct (DG1 b Hb) as [Tb Lb].
        apply (lex_gt_deg vo Hvo _ _ v); [apply (norm_in S (mok vo) K _ a NT Ha)|apply (norm_in S (mok vo) K _ b NG1 Hb)|exact Ta|exact Tb|lia].
      * apply inD_app. split; [apply (inD_weak (h + 1 - f) (g - f)); [lia|lia|exact DT]|apply (inD_weak (g' - f) (g' - f)); [lia|lia|exact DG1]].
      * rewrite (graw_app sm). transitivity (radd (graw T2) (graw G1)); [reflexivity|]. rewrite RT, RQ. reflexivity.
    + cbn [obind].
      destruct (IH O' None (radd (rmul K (graw F0) Qs) (graw G1)) (d - 1) (g' - 1) (Datatypes.S n)) as (O2 & Qo2 & Qs2 & n2 & E2 & X);
        [assumption|assumption|lia|lia|lia|lia|exact RR|exact I|exists O2, Qo2, Qs2, n2; split; [exact E2|exact X]].
Qed.
End Step.

Lemma factor_ok F0 d : norm F0 -> 0 < d < 2 ^ 63 -> exists P, prem_factor K vo compress F0 d = Ok P /\ norm P /\
  req K (graw P) (rpow K (graw F0) (Z.to_nat d)) /\ (inD 0 0 F0 -> inD 0 0 P).
Proof.
  intros N Hd. assert (X : exists P, prem_factor K vo compress F0 d = Ok P /\ norm P /\ req K (graw P) (rpow K (graw F0) (Z.to_nat d))).
  { unfold prem_factor. destruct (Z.eqb_spec d 1) as [->|n].
    - exists F0. split; [reflexivity|]. split; [exact N|]. change (Z.to_nat 1) with 1%nat. cbn [rpow]. ring.
    - unfold pair_vec_power. destruct (Z.eqb_spec d 0); [lia|]. destruct (Z.eqb_spec d 1); [lia|].
      destruct (power_loop_ok S (mok vo) sm K HS HK HD compress HC 64 [] F0 true d) as (P & E & NP & RP); try first [lia|exact N|intros _; lia|intros X; discriminate X].
      exists P. auto. }
  destruct X as (P & E & NP & RP). exists P. split; [exact E|]. split; [exact NP|]. split; [exact RP|].
  intros D. (* degree 0 is preserved by powers *)
  assert (G : forall n, forall s, coef K (rpow K (graw F0) n) s <> c0 K -> (forall w, exp s w <> 0%N -> w = v \/ vo v w = true) /\ exp s v = 0%N).
  { induction n as [|n IH]; intros s Hs; cbn [rpow] in Hs.
    - assert (meq [] s) as E0.
      { unfold r1, rconst in Hs. cbn [Spec.coef] in Hs. destruct (meqb_spec [] s) as [e|e]; [exact e|]. congruence. }
      split; [intros w Hw; exfalso; apply Hw; rewrite <- (E0 w); reflexivity|rewrite <- (E0 v); reflexivity].
    - apply (coef_mul_supp K HK) in Hs as (s1 & s2 & H1 & H2 & E12). destruct (IH s2 H2) as [A2 B2].
      destruct (term_of F0 s1 N H1) as (t1 & I1 & O1 & X1). unfold inD in D. rewrite Forall_forall in D. destruct (D t1 I1) as [T1 L1].
      split.
      + intros w Hw. rewrite <- (E12 w), exp_app in Hw. destruct (N.eq_dec (exp s1 w) 0) as [e|e]; [apply A2; lia|].
        apply (topm_keys vo Hvo v (fst t1) w O1 T1). specialize (X1 w). lia.
      + rewrite <- (E12 v), exp_app, B2. specialize (X1 v). lia. }
  apply Forall_forall. intros t Ht. destruct (in_supp P t NP Ht) as (O & Z & X). rewrite (RP (sm (fst t))) in Z.
  destruct (G _ _ Z) as [A B]. split.
  - apply (topm_of vo Hvo); [exact O|]. intros w Hw. apply A. rewrite <- X in Hw. lia.
  - rewrite <- X, B. cbn. lia.
Qed.

(** ** prem and pquo *)
Lemma is_number_spec p : norm p -> (is_number p = true <-> p = [] \/ exists c, p = [(mono1, c)]).
Proof.
  intros N. destruct p as [|[m c] [|u p]].
  - split; [left; reflexivity|reflexivity].
  - cbn [is_number fst]. destruct (norm_in S (mok vo) K _ _ N (or_introl eq_refl)) as [O _]. cbn [fst] in O. rewrite (mempty_spec vo m O).
    split; [intros ->; right; exists c; reflexivity|]. intros [X|[c' [= -> _]]]; [discriminate|reflexivity].
  - split; [discriminate|]. intros [X|[c' X]]; discriminate.
Qed.
Lemma not_number_head p : norm p -> is_number p = false -> exists t r, p = t :: r /\ md (fst t) <> [].
Proof.
  intros N E. destruct p as [|t r]; [discriminate|]. exists t, r. split; [reflexivity|]. intros Em.
  destruct (first_const vo K r t N Em) as [Et ->]. cbn [is_number] in E. unfold mempty in E. rewrite Em in E. discriminate.
Qed.
Lemma first_head t r : norm (t :: r) -> topm vo v (fst t) -> md (fst t) <> [] ->
  (first_var (t :: r) = v /\ first_deg (t :: r) = zexp (fst t) v /\ 0 < zexp (fst t) v) \/ (first_var (t :: r) <> v /\ zexp (fst t) v = 0).
Proof.
  intros N T Em. destruct (norm_in S (mok vo) K _ t N (or_introl eq_refl)) as [O _].
  cbn [first_var first_deg]. unfold mfirst_var, mfirst_deg.
  destruct (topm_shape vo Hvo v (fst t) O T) as [[[E|(w & e & l & E & Hw)] Z]|(e & l & E & Ee & P)]; rewrite E.
  - contradiction.
  - right. split; [|exact Z]. intros ->. rewrite (vo_irrefl vo Hvo) in Hw. discriminate.
  - left. split; [reflexivity|]. lia.
Qed.
Lemma inD_of t r : norm (t :: r) -> topm vo v (fst t) -> inD 0 (zexp (fst t) v) (t :: r).
Proof.
  intros N T. destruct (topp_head vo Hvo K v t r N T) as [T' L']. unfold inD, topp in *. rewrite Forall_forall in *. intros u Hu.
  split; [apply T', Hu|]. specialize (L' u Hu). cbv beta in L'. destruct (norm_in S (mok vo) K _ u N Hu) as [O _].
  pose proof (zexp_nonneg vo (fst u) v O). lia.
Qed.
Lemma inD_deg lo hi p : norm p -> inD lo hi p -> 0 <= hi + 1 -> deg_lt K (graw p) v (Z.to_N (hi + 1)).
Proof.
  intros N D Hh s Hs. destruct (term_of p s N Hs) as (t & Ht & O & X). unfold inD in D. rewrite Forall_forall in D. destruct (D t Ht) as [_ L].
  specialize (X v). lia.
Qed.
Lemma topp_inD p : norm p -> topp vo v p -> inD 0 (p_degree p v) p.
Proof.
  intros N T. destruct p as [|t r]; [constructor|]. pose proof (Forall_inv T) as Tt. cbv beta in Tt. rewrite (top_deg vo Hvo K v r t N Tt). apply inD_of; assumption.
Qed.

(** F = F0*v^f + F_ for the split used by the code *)
Lemma split_F t r : norm (t :: r) -> topm vo v (fst t) -> 0 < zexp (fst t) v ->
  let f := zexp (fst t) v in let '(FL, F_) := split_lead v f (t :: r) in
  let F0 := set_deg vo v 0 FL in
  norm F0 /\ norm F_ /\ inD 0 0 F0 /\ inD 0 (f - 1) F_ /\
  req K (graw (t :: r)) (radd (rmul K (graw F0) (rmono K [(v, Z.to_N f)])) (graw F_)) /\
  req K (graw F0) (rcoeff K v (Z.to_N f) (graw (t :: r))).
Proof.
  intros N T P f. pose proof (split_lead_spec f (t :: r) N (inD_of t r N T) P) as SP. destruct (split_lead v f (t :: r)) as [FL F_].
  destruct SP as (EF & DL & D_). rewrite EF in *. destruct (norm_parts FL F_ N) as [NL N_].
  destruct (set_deg_spec 0 f FL NL DL ltac:(lia)) as (N0 & D0 & R0). rewrite Z.sub_0_r in R0.
  split; [exact N0|]. split; [exact N_|]. split; [exact D0|]. split; [exact D_|]. split.
  - rewrite (graw_app sm). transitivity (radd (graw FL) (graw F_)); [reflexivity|]. rewrite R0. reflexivity.
  - destruct (cls_spec vo Hvo S (or_introl eq_refl) K HK v f (FL ++ F_) N ltac:(lia)) as [_ RC]. rewrite <- RC.
    replace (cls vo v f (FL ++ F_)) with (set_deg vo v 0 FL); [reflexivity|]. unfold cls, set_deg. rewrite filter_app.
    assert (filter (fun t0 : mono * C => zexp (fst t0) v =? f) F_ = []) as ->.
    { clear -D_. induction D_ as [|u l [_ L] _ IH]; [reflexivity|]. cbn [filter]. destruct (Z.eqb_spec (zexp (fst u) v) f); [lia|exact IH]. }
    assert (filter (fun t0 : mono * C => zexp (fst t0) v =? f) FL = FL) as ->.
    { clear -DL. induction DL as [|u l [_ L] _ IH]; [reflexivity|]. cbn [filter]. destruct (Z.eqb_spec (zexp (fst u) v) f); [rewrite IH; reflexivity|lia]. }
    rewrite app_nil_r. reflexivity.
Qed.

(** What the theorems say of (Q,R): lc^n * G = Q*F + R, deg_v R < deg_v F. *)
Definition pseudo (is_L : bool) (G F : poly) (Qs : rpoly C) (R : poly) : Prop :=
  let dF := p_degree F v in let dG := p_degree G v in
  deg_lt K (graw R) v (Z.to_N dF) /\
  exists n, (Z.of_nat n <= Z.max (dG - dF + 1) 0) /\ (is_L = true -> Z.of_nat n = Z.max (dG - dF + 1) 0) /\
    req K (rmul K (rpow K (rcoeff K v (Z.to_N dF) (graw F)) n) (graw G)) (radd (rmul K Qs (graw F)) (graw R)).

Lemma rcoeff_deg0 p : norm p -> topp vo v p -> p_degree p v = 0 -> req K (rcoeff K v 0 (graw p)) (graw p).
Proof.
  intros N T E. destruct (cls_spec vo Hvo S (or_introl eq_refl) K HK v 0 p N ltac:(lia)) as [_ RC]. cbn [Z.to_N] in RC. rewrite <- RC.
  rewrite (cls_zero vo Hvo K v p N T); [reflexivity|]. rewrite <- E. apply (deg_all vo Hvo K v p N).
Qed.
Lemma deg_head t r : norm (t :: r) -> topp vo v (t :: r) -> p_degree (t :: r) v = zexp (fst t) v.
Proof. intros N T. apply (top_deg vo Hvo K v r t N). exact (Forall_inv T). Qed.

(** the common part of prem and pquo when deg_v F > 0 and deg_v G >= deg_v F *)
Lemma main_ok G F : norm G -> norm F -> topp vo v G -> topp vo v F -> 0 < p_degree F v <= p_degree G v ->
  exists t r u q,
  F = t :: r /\ G = u :: q /\ first_var F = v /\ first_var G = v /\ first_deg F = p_degree F v /\ first_deg G = p_degree G v /\
  let '(FL, F_) := split_lead v (p_degree F v) F in let F0 := set_deg vo v 0 FL in
  norm F0 /\ inD 0 0 F0 /\ req K (graw F0) (rcoeff K v (Z.to_N (p_degree F v)) (graw F)) /\
  exists R1 Q1, prem_step K vo compress v F0 (p_degree F v) F_ G = Ok (R1, Q1) /\
  exists fuel0, forall fuel, (fuel0 <= fuel)%nat -> forall b : bool,
   exists R Qo Qs n, prem_loop K vo compress fuel v F0 (p_degree F v) F_ R1 (if b then Some Q1 else None) (p_degree G v - p_degree F v)
      = Ok (R, Qo, p_degree G v - p_degree F v + 1 - Z.of_nat n) /\
    norm R /\ inD 0 (p_degree F v - 1) R /\ Z.of_nat n <= p_degree G v - p_degree F v + 1 /\
    req K (rmul K (rpow K (graw F0) n) (graw G)) (radd (rmul K Qs (graw F)) (graw R)) /\
    (if b then exists Q', Qo = Some Q' /\ norm Q' /\ req K (graw Q') Qs else Qo = None).
Proof.
  intros NG NF TG TF Hd.
  destruct F as [|t r]; [cbn in Hd; lia|]. destruct G as [|u q]; [cbn in Hd; lia|]. exists t, r, u, q.
  pose proof (Forall_inv TF) as Tt. pose proof (Forall_inv TG) as Tu. cbv beta in Tt, Tu.
  rewrite (deg_head t r NF TF) in *. rewrite (deg_head u q NG TG) in *.
  assert (Zr : forall (x : mono * C) (l : poly), 0 < zexp (fst x) v -> md (fst x) <> []).
  { intros x l Hx E. unfold zexp in Hx. rewrite E in Hx. cbn in Hx. lia. }
  split; [reflexivity|]. split; [reflexivity|].
  destruct (first_head t r NF Tt (Zr t r ltac:(lia))) as [(A1 & A2 & A3)|[_ A]]; [|lia].
  destruct (first_head u q NG Tu (Zr u q ltac:(lia))) as [(B1 & B2 & B3)|[_ B]]; [|lia].
  split; [exact A1|]. split; [exact B1|]. split; [exact A2|]. split; [exact B2|].
  pose proof (split_F t r NF Tt A3) as SP. cbv zeta in SP. set (f := zexp (fst t) v) in *. set (g := zexp (fst u) v) in *.
  destruct (split_lead v f (t :: r)) as [FL F_]. destruct SP as (N0 & N_ & D0 & D_ & RF & RL). set (F0 := set_deg vo v 0 FL) in *.
  split; [exact N0|]. split; [exact D0|]. split; [exact RL|].
  destruct (step_ok F0 F_ f A3 N0 N_ D0 D_ u q g NG Tu eq_refl ltac:(lia)) as (R1 & Q1 & ES & NR1 & NQ1 & DR1 & DQ1 & RS).
  exists R1, Q1. split; [exact ES|]. exists (Z.to_nat g). intros fuel Hfu b.
  destruct (loop_ok F0 F_ f A3 N0 N_ D0 D_ (graw (u :: q)) g fuel R1 (if b then Some Q1 else None) (graw Q1) (g - f) (g - 1) 1) as (R & Qo & Qs & n & EL & NR & DR & Hn & RR & HQ);
    try assumption; try lia.
  - rewrite <- RS. cbn [rpow]. ring.
  - destruct b; [|exact I]. split; [exact NQ1|]. split; [apply (inD_weak (g - f) (g - f)); [lia|lia|exact DQ1]|reflexivity].
  - exists R, Qo, Qs, n. split; [exact EL|]. split; [exact NR|]. split; [exact DR|]. split; [exact Hn|]. rewrite RF at 1. split; [exact RR|].
    destruct b; exact HQ.
Qed.

Lemma req_opp_cancel a b c : req K a (radd b c) -> req K c (rsub K a b).
Proof. intros H. rewrite H. ring. Qed.
Lemma rpow_S p n : rpow K p (Datatypes.S n) = rmul K p (rpow K p n). Proof. reflexivity. Qed.

(** deg_v F = 0: everything is divisible *)
Lemma pseudo_deg0 is_L G F : norm F -> topp vo v F -> p_degree F v = 0 -> 0 <= p_degree G v ->
  pseudo is_L G F (rmul K (graw G) (rpow K (graw F) (Z.to_nat (p_degree G v)))) [].
Proof.
  intros N T E Hg. unfold pseudo. rewrite E. cbn [Z.to_N]. split; [intros s Hs; exfalso; apply Hs; reflexivity|].
  exists (Datatypes.S (Z.to_nat (p_degree G v))). split; [lia|]. split; [lia|]. rewrite (rcoeff_deg0 F N T E), rpow_S.
  change (graw []) with (@r0 C). ring.
Qed.
(** deg_v G < deg_v F *)
Lemma pseudo_small is_L G F : norm G -> 0 <= p_degree G v < p_degree F v -> pseudo is_L G F (@r0 C) G.
Proof.
  intros N Hd. unfold pseudo. split.
  - intros s Hs. destruct (p_degree_spec vo Hvo S (or_introl eq_refl) K HK G v N) as [_ [L _]]. specialize (L s Hs). lia.
  - exists 0%nat. split; [lia|]. split; [lia|]. cbn [rpow]. ring.
Qed.
Lemma pseudo_mul G F Qs R n d P (F0 : poly) : norm P -> norm R ->
  req K (graw F0) (rcoeff K v (Z.to_N (p_degree F v)) (graw F)) ->
  req K (rmul K (rpow K (graw F0) n) (graw G)) (radd (rmul K Qs (graw F)) (graw R)) ->
  req K (graw P) (rpow K (graw F0) d) -> forall R', req K (graw R') (rmul K (graw R) (graw P)) ->
  req K (rmul K (rpow K (rcoeff K v (Z.to_N (p_degree F v)) (graw F)) (d + n)) (graw G)) (radd (rmul K (rmul K Qs (graw P)) (graw F)) (graw R')).
Proof.
  intros NP NR R0 RR RP R' RR'. rewrite <- R0. rewrite (rpow_add K HK), RR', <- RP.
  transitivity (rmul K (graw P) (rmul K (rpow K (graw F0) n) (graw G))); [ring|]. rewrite RR. ring.
Qed.

Lemma deg_cases G F : norm G -> norm F -> F <> [] -> topp vo v G -> topp vo v F ->
  let cond := is_number F || negb (N.eqb (first_var F) v) in
  let cond2 := negb (N.eqb (first_var G) v) || (first_deg G <? first_deg F) in
  (p_degree F v = 0 /\ cond = true) \/ (0 < p_degree F v /\ cond = false /\
     ((p_degree G v < p_degree F v /\ cond2 = true) \/ (p_degree F v <= p_degree G v /\ cond2 = false))).
Proof.
  intros NG NF Fne TG TF. cbv zeta. destruct F as [|t r]; [congruence|]. rewrite (deg_head t r NF TF).
  pose proof (Forall_inv TF) as Tt. cbv beta in Tt.
  destruct (is_number (t :: r)) eqn:EN.
  - left. split; [|reflexivity]. apply (is_number_spec _ NF) in EN as [X|[c X]]; [discriminate|]. injection X as -> _. reflexivity.
  - destruct (not_number_head _ NF EN) as (t' & r' & [= <- <-] & Em).
    destruct (first_head t r NF Tt Em) as [(A1 & A2 & A3)|[A1 A2]].
    + right. split; [exact A3|]. rewrite A1, N.eqb_refl, A2. split; [reflexivity|].
      destruct G as [|u q].
      * left. split; [exact A3|]. cbn [first_var first_deg]. destruct (N.eqb 0 v); [|reflexivity]. cbn [negb orb].
        destruct (Z.ltb_spec 0 (zexp (fst t) v)); [reflexivity|lia].
      * rewrite (deg_head u q NG TG). pose proof (Forall_inv TG) as Tu. cbv beta in Tu.
        destruct (md (fst u)) as [|x l] eqn:Eu.
        -- destruct (first_const vo K q u NG Eu) as [E1 ->]. left. rewrite E1. split; [exact A3|].
           cbn [first_var first_deg]. unfold mfirst_var, mfirst_deg. rewrite Eu. destruct (N.eqb 0 v); [|reflexivity]. cbn [negb orb].
           destruct (Z.ltb_spec 0 (zexp (fst t) v)); [reflexivity|lia].
        -- destruct (first_head u q NG Tu) as [(B1 & B2 & B3)|[B1 B2]]; [rewrite Eu; discriminate| |].
           ++ rewrite B1, N.eqb_refl, B2. cbn [negb orb]. destruct (Z.ltb_spec (zexp (fst u) v) (zexp (fst t) v)); [left|right]; split; (lia || reflexivity).
           ++ left. split; [lia|]. destruct (N.eqb_spec (first_var (u :: q)) v); [contradiction|reflexivity].
    + left. split; [exact A2|]. destruct (N.eqb_spec (first_var (t :: r)) v); [contradiction|reflexivity].
Qed.
Lemma deg_first G : norm G -> topp vo v G -> (if N.eqb v (first_var G) then first_deg G else 0) = p_degree G v.
Proof.
  intros N T. destruct G as [|u q]; [cbn; destruct (N.eqb v 0); reflexivity|]. rewrite (deg_head u q N T).
  pose proof (Forall_inv T) as Tu. cbv beta in Tu.
  destruct (md (fst u)) as [|x l] eqn:Eu.
  - destruct (first_const vo K q u N Eu) as [E1 ->]. cbn [first_var first_deg]. unfold mfirst_var, mfirst_deg. rewrite Eu, E1.
    destruct (N.eqb v 0); reflexivity.
  - destruct (first_head u q N Tu) as [(B1 & B2 & B3)|[B1 B2]]; [rewrite Eu; discriminate| |].
    + rewrite B1, N.eqb_refl, B2. reflexivity.
    + destruct (N.eqb_spec v (first_var (u :: q))); [congruence|]. symmetry. exact B2.
Qed.

Lemma prem_loop_mono F0 f F_ fuel : forall Ot Qo d r, prem_loop K vo compress fuel v F0 f F_ Ot Qo d = Ok r ->
  forall fuel', (fuel <= fuel')%nat -> prem_loop K vo compress fuel' v F0 f F_ Ot Qo d = Ok r.
Proof.
  induction fuel as [|fuel IH]; intros Ot Qo d r E [|fuel'] L; cbn [prem_loop] in *; try assumption; try lia.
  - destruct (N.eqb (first_var Ot) v && (first_deg Ot >=? f)); [discriminate|exact E].
  - destruct (N.eqb (first_var Ot) v && (first_deg Ot >=? f)); [|exact E].
    destruct (prem_step K vo compress v F0 f F_ Ot) as [[O' G1]| | |]; try discriminate. cbn [obind] in *.
    destruct (match Qo with Some Q => _ | None => _ end) as [Qo'| | |]; try discriminate. cbn [obind] in *.
    apply IH; [exact E|lia].
Qed.

Theorem prem_core_ok G F is_L : norm G -> norm F -> F <> [] -> topp vo v G -> topp vo v F -> (is_L = true -> p_degree G v < 2 ^ 63) ->
  exists R, (exists fuel0, forall fuel, (fuel0 <= fuel)%nat -> prem_core K vo compress fuel G F v is_L = Ok R) /\ norm R /\
    exists Qs, pseudo is_L G F Qs R.
Proof.
  intros NG NF Fne TG TF Hb.
  assert (Hg : 0 <= p_degree G v) by apply (p_degree_spec vo Hvo S (or_introl eq_refl) K HK G v NG).
  destruct (deg_cases G F NG NF Fne TG TF) as [[E C1]|(E & C1 & C2)].
  - exists []. split; [exists 0%nat; intros fuel _|split; [apply (norm_nil S (mok vo) K)|eexists; apply pseudo_deg0; assumption]].
    unfold prem_core. destruct F as [|t r]; [congruence|]. destruct (is_number (t :: r)); [reflexivity|]. cbn [orb] in C1. rewrite C1. reflexivity.
  - apply orb_false_iff in C1 as [C1 C1'].
    destruct C2 as [[L C2]|[L C2]].
    + exists G. split; [exists 0%nat; intros fuel _|split; [exact NG|eexists; apply pseudo_small; [exact NG|lia]]].
      unfold prem_core. destruct F as [|t r]; [congruence|]. rewrite C1, C1', C2. reflexivity.
    + destruct (main_ok G F NG NF TG TF ltac:(lia)) as (t & r & u & q & EF & EG & V1 & V2 & D1 & D2 & M).
      destruct (split_lead v (p_degree F v) F) as [FL F_] eqn:SP. set (F0 := set_deg vo v 0 FL) in *. cbv zeta in M.
      destruct M as (N0 & D0 & RL & R1 & Q1 & ES & fuel0 & M).
      destruct (M fuel0 (le_n _) false) as (R & Qo & Qs & n & EL & NR & DR & Hn & RR & _).
      assert (Pre : forall fuel, (fuel0 <= fuel)%nat -> prem_core K vo compress fuel G F v is_L =
        if is_L && (p_degree G v - p_degree F v + 1 - Z.of_nat n >? 0) then (P <- prem_factor K vo compress F0 (p_degree G v - p_degree F v + 1 - Z.of_nat n) ;; p_mul S K compress R P) else Ok R).
      { intros fuel Hf. unfold prem_core. destruct F as [|t' r']; [congruence|]. rewrite C1, C1', C2, D1, D2, SP. fold F0. rewrite ES. cbn [obind].
        rewrite (prem_loop_mono _ _ _ _ _ _ _ _ EL fuel Hf). reflexivity. }
      assert (DL : forall R', norm R' -> inD 0 (p_degree F v - 1) R' -> deg_lt K (graw R') v (Z.to_N (p_degree F v))).
      { intros R' N' D'. pose proof (inD_deg 0 (p_degree F v - 1) R' N' D' ltac:(lia)) as X. replace (p_degree F v - 1 + 1) with (p_degree F v) in X by lia. exact X. }
      destruct (is_L && (p_degree G v - p_degree F v + 1 - Z.of_nat n >? 0)) eqn:EC.
      * apply andb_true_iff in EC as [-> EC]. specialize (Hb eq_refl). apply Z.gtb_lt in EC. set (d := p_degree G v - p_degree F v + 1 - Z.of_nat n) in *.
        destruct (factor_ok F0 d N0 ltac:(lia)) as (P & EP & NP & RP & DP). specialize (DP D0).
        destruct (mulS R P NR NP) as (R' & ER' & NR' & RR' & DR'). specialize (DR' _ _ _ _ DR DP). rewrite !Z.add_0_r in DR'.
        exists R'. split; [exists fuel0; intros fuel Hf; rewrite (Pre fuel Hf), EP; exact ER'|]. split; [exact NR'|].
        exists (rmul K Qs (graw P)). split; [apply DL; assumption|]. exists (Z.to_nat d + n)%nat. split; [lia|]. split; [lia|].
        apply (pseudo_mul G F Qs R n (Z.to_nat d) P F0); assumption.
      * exists R. split; [exists fuel0; exact Pre|]. split; [exact NR|]. exists Qs. split; [apply DL; assumption|]. exists n.
        split; [lia|]. split; [|rewrite <- RL; exact RR]. intros ->. cbn [andb] in EC.
        destruct (Z.gtb_spec (p_degree G v - p_degree F v + 1 - Z.of_nat n) 0); [discriminate|lia].
Qed.

Theorem pquo_core_ok G F is_L : norm G -> norm F -> F <> [] -> topp vo v G -> topp vo v F -> p_degree G v < 2 ^ 63 ->
  exists Q R, (exists fuel0, forall fuel, (fuel0 <= fuel)%nat -> pquo_core K vo compress fuel G F v is_L = Ok (Q, R)) /\ norm Q /\ norm R /\
    pseudo is_L G F (graw Q) R.
Proof.
  intros NG NF Fne TG TF Hb.
  assert (Hg : 0 <= p_degree G v) by apply (p_degree_spec vo Hvo S (or_introl eq_refl) K HK G v NG).
  destruct (deg_cases G F NG NF Fne TG TF) as [[E C1]|(E & C1 & C2)].
  - assert (X : exists Q, (forall fuel, pquo_core K vo compress fuel G F v is_L = Ok (Q, [])) /\ norm Q /\
       req K (graw Q) (rmul K (graw G) (rpow K (graw F) (Z.to_nat (p_degree G v))))).
    { unfold pquo_core. destruct F as [|t r]; [congruence|]. rewrite C1. rewrite (deg_first G NG TG).
      destruct (Z.eqb_spec (p_degree G v) 0) as [e|e]; cbn [negb].
      - exists G. split; [reflexivity|]. split; [exact NG|]. rewrite e. cbn [Z.to_nat rpow]. ring.
      - destruct (factor_ok (t :: r) (p_degree G v) NF ltac:(lia)) as (P & EP & NP & RP & _).
        destruct (mulS G P NG NP) as (Q & EQ & NQ & RQ & _). exists Q. split; [intros _; rewrite EP; cbn [obind]; rewrite EQ; reflexivity|].
        split; [exact NQ|]. rewrite RQ, RP. reflexivity. }
    destruct X as (Q & EQ & NQ & RQ). exists Q, []. split; [exists 0%nat; intros fuel _; apply EQ|]. split; [exact NQ|].
    split; [apply (norm_nil S (mok vo) K)|].
    destruct (pseudo_deg0 is_L G F NF TF E Hg) as (A & n & B & B' & X). split; [exact A|]. exists n. split; [exact B|]. split; [exact B'|]. rewrite X, RQ. reflexivity.
  - destruct C2 as [[L C2]|[L C2]].
    + exists [], G. split; [exists 0%nat; intros fuel _|split; [apply (norm_nil S (mok vo) K)|split; [exact NG|apply pseudo_small; [exact NG|lia]]]].
      unfold pquo_core. destruct F as [|t r]; [congruence|]. rewrite C1, C2. reflexivity.
    + destruct (main_ok G F NG NF TG TF ltac:(lia)) as (t & r & u & q & EF & EG & V1 & V2 & D1 & D2 & M).
      destruct (split_lead v (p_degree F v) F) as [FL F_] eqn:SP. set (F0 := set_deg vo v 0 FL) in *. cbv zeta in M.
      destruct M as (N0 & D0 & RL & R1 & Q1 & ES & fuel0 & M).
      destruct (M fuel0 (le_n _) true) as (R & Qo & Qs & n & EL & NR & DR & Hn & RR & (Q & -> & NQ & RQ)).
      assert (Pre : forall fuel, (fuel0 <= fuel)%nat -> pquo_core K vo compress fuel G F v is_L =
        if is_L && (p_degree G v - p_degree F v + 1 - Z.of_nat n >? 0) then
          (P <- prem_factor K vo compress F0 (p_degree G v - p_degree F v + 1 - Z.of_nat n) ;; R' <- p_mul S K compress R P ;; Q' <- p_mul S K compress Q P ;; Ok (Q', R'))
        else Ok (Q, R)).
      { intros fuel Hf. unfold pquo_core. destruct F as [|t' r']; [congruence|]. rewrite C1, C2, D1, D2, SP. fold F0. rewrite ES. cbn [obind].
        rewrite (prem_loop_mono _ _ _ _ _ _ _ _ EL fuel Hf). reflexivity. }
      assert (DL : forall R', norm R' -> inD 0 (p_degree F v - 1) R' -> deg_lt K (graw R') v (Z.to_N (p_degree F v))).
      { intros R' N' D'. pose proof (inD_deg 0 (p_degree F v - 1) R' N' D' ltac:(lia)) as X. replace (p_degree F v - 1 + 1) with (p_degree F v) in X by lia. exact X. }
      destruct (is_L && (p_degree G v - p_degree F v + 1 - Z.of_nat n >? 0)) eqn:EC.
      * apply andb_true_iff in EC as [-> EC]. apply Z.gtb_lt in EC. set (d := p_degree G v - p_degree F v + 1 - Z.of_nat n) in *.
        destruct (factor_ok F0 d N0 ltac:(lia)) as (P & EP & NP & RP & DP). specialize (DP D0).
        destruct (mulS R P NR NP) as (R' & ER' & NR' & RR' & DR'). specialize (DR' _ _ _ _ DR DP). rewrite !Z.add_0_r in DR'.
        destruct (mulS Q P NQ NP) as (Q' & EQ' & NQ' & RQ' & _).
        exists Q', R'. split; [exists fuel0; intros fuel Hf; rewrite (Pre fuel Hf), EP; cbn [obind]; rewrite ER'; cbn [obind]; rewrite EQ'; reflexivity|].
        split; [exact NQ'|]. split; [exact NR'|].
        split; [apply DL; assumption|]. exists (Z.to_nat d + n)%nat. split; [lia|]. split; [lia|].
        rewrite RQ', RQ.
        apply (pseudo_mul G F Qs R n (Z.to_nat d) P F0); assumption.
      * exists Q, R. split; [exists fuel0; exact Pre|]. split; [exact NQ|]. split; [exact NR|]. split; [apply DL; assumption|]. exists n.
        split; [lia|]. split; [|rewrite RQ, <- RL; exact RR]. intros ->. cbn [andb] in EC.
        destruct (Z.gtb_spec (p_degree G v - p_degree F v + 1 - Z.of_nat n) 0); [discriminate|lia].
Qed.
End P.

(** ** The entry points *)
Section W.
Context (vo : vorder) (Hvo : vorder_ok vo) (S : monos mono) (HSS : S = lexS vo \/ S = grlexS vo).
Context {C : Type} (K : coefs C) (HK : ring_ok K) (HD : domain_ok K) (v : var).
Context (compress compress_v : poly C -> poly C -> outcome (option (poly C))).
Add Ring Kring2 : (ring_laws K HK).
Add Ring Rring2 : (rring K HK) (setoid (req_equiv K) (rring_ext K HK)).
Notation gt := (m_gt S).
Notation norm := (normal (mok vo) gt K).
Notation graw := (graw sm).
Notation poly := (poly C).
Notation U := (lexS (vuniv v)).
Context (Hu : vorder_ok (vuniv v)).
Context (HC : comp_all S (mok vo) sm K compress) (HCv : comp_all U (mok (vuniv v)) sm K compress_v).
Context (ms1 ms2 : list (var * Z) -> list (var * Z)) (s1 s2 : poly -> poly).
Context (Hm1 : sort_ok (fun _ : var => True) (vuniv v) ms1) (Hm2 : sort_ok (fun _ : var => True) vo ms2).
Context (Hs1 : sort_ok (mok (vuniv v)) (lex_gt (vuniv v)) s1) (Hs2 : sort_ok (mok vo) gt s2).

Lemma pseudo_div_req b G F Q R G' F' Q' R' : req K G G' -> req K F F' -> req K Q Q' -> req K R R' ->
  pseudo_div K v b G F Q R -> pseudo_div K v b G' F' Q' R'.
Proof.
  intros EG EF EQ ER (dG & dF & n & A & B & D & H & H' & X). exists dG, dF, n.
  split; [rewrite <- EG; exact A|]. split; [rewrite <- EF; exact B|]. split; [rewrite <- ER; exact D|]. split; [exact H|]. split; [exact H'|].
  rewrite <- EG, <- EQ, <- ER, <- EF. exact X.
Qed.
Lemma pseudo_of (vo' : vorder) (Hv' : vorder_ok vo') b (G F R : poly) Qs : normal (mok vo') (lex_gt vo') K G -> normal (mok vo') (lex_gt vo') K F ->
  pseudo K v b G F Qs R -> pseudo_div K v b (graw G) (graw F) Qs (graw R).
Proof.
  intros NG NF (D & n & H & H' & X).
  destruct (p_degree_spec vo' Hv' (lexS vo') (or_introl eq_refl) K HK G v NG) as [PG DG].
  destruct (p_degree_spec vo' Hv' (lexS vo') (or_introl eq_refl) K HK F v NF) as [PF DF].
  exists (Z.to_N (p_degree G v)), (Z.to_N (p_degree F v)), n. split; [exact DG|]. split; [exact DF|]. split; [exact D|].
  split; [lia|]. split; [intros Y; specialize (H' Y); lia|exact X].
Qed.

Definition up := p_convert K (vuniv v) (lex_gt (vuniv v)) ms1 s1 (fun c => c).
Definition down := p_convert K vo gt ms2 s2 (fun c => c).
Lemma up_spec p : norm p -> normal (mok (vuniv v)) (lex_gt (vuniv v)) K (up p) /\ req K (graw (up p)) (graw p).
Proof.
  intros N. apply (convert_spec vo (vuniv v) Hvo Hu S U HSS (or_introl eq_refl) K K HK HK (fun c => c) eq_refl ms1 Hm1 s1 Hs1 p N).
Qed.
Lemma down_spec p : normal (mok (vuniv v)) (lex_gt (vuniv v)) K p -> norm (down p) /\ req K (graw (down p)) (graw p).
Proof.
  intros N. apply (convert_spec (vuniv v) vo Hu Hvo U S (or_introl eq_refl) HSS K K HK HK (fun c => c) eq_refl ms2 Hm2 s2 Hs2 p N).
Qed.
Lemma up_ne p : norm p -> p <> [] -> up p <> [].
Proof.
  intros N H E. apply H. apply (graw_nil_req S (mok vo) sm K (HS vo Hvo S HSS) HK p N). destruct (up_spec p N) as [_ R].
  rewrite <- R, E. reflexivity.
Qed.
Lemma up_deg p : norm p -> p_degree (up p) v = p_degree p v.
Proof.
  intros N. destruct (up_spec p N) as [N' R].
  destruct (p_degree_spec vo Hvo S HSS K HK p v N) as [P1 D1].
  destruct (p_degree_spec (vuniv v) Hu U (or_introl eq_refl) K HK (up p) v N') as [P2 D2]. rewrite R in D2.
  pose proof (deg_is_unique K _ _ _ _ D1 D2). lia.
Qed.
Lemma number_deg p : norm p -> is_number p = true -> p_degree p v = 0.
Proof.
  intros N E. destruct p as [|[m c] [|? ?]]; [reflexivity| |discriminate]. cbn [is_number fst] in E.
  destruct (norm_in S (mok vo) K _ _ N (or_introl eq_refl)) as [O _]. apply (mempty_spec vo m O) in E as ->. reflexivity.
Qed.
Lemma rcoeff_0 p : norm p -> p_degree p v = 0 -> req K (rcoeff K v 0 (graw p)) (graw p).
Proof.
  intros N E. destruct (up_spec p N) as [N' R]. rewrite <- R. apply (rcoeff_deg0 (vuniv v) Hu K HK v); [exact N'|apply (topp_univ _ v _ eq_refl)|].
  rewrite up_deg; assumption.
Qed.
Lemma number_pseudo b G F : norm G -> norm F -> is_number F = true ->
  pseudo_div K v b (graw G) (graw F) (rmul K (graw G) (rpow K (graw F) (Z.to_nat (p_degree G v)))) (@r0 C).
Proof.
  intros NG NF E. pose proof (number_deg F NF E) as Z0.
  destruct (p_degree_spec vo Hvo S HSS K HK G v NG) as [PG DG]. destruct (p_degree_spec vo Hvo S HSS K HK F v NF) as [PF DF].
  rewrite Z0 in DF. cbn [Z.to_N] in DF.
  exists (Z.to_N (p_degree G v)), 0%N, (Datatypes.S (Z.to_nat (p_degree G v))). split; [exact DG|]. split; [exact DF|].
  split; [intros s Hs; exfalso; apply Hs; reflexivity|]. split; [lia|]. split; [lia|]. rewrite (rcoeff_0 F NF Z0). cbn [rpow]. ring.
Qed.

Theorem prem_gen_ok G F b : norm G -> norm F -> F <> [] -> (b = true -> p_degree G v < 2 ^ 63) ->
  exists R, (exists fuel0, forall fuel, (fuel0 <= fuel)%nat -> prem_gen K vo gt compress_v ms1 ms2 s1 s2 fuel G F v b = Ok R) /\ norm R /\
    exists Qs, pseudo_div K v b (graw G) (graw F) Qs (graw R).
Proof.
  intros NG NF Fne Hb. destruct (is_number F) eqn:EN.
  - exists []. split; [exists 0%nat; intros fuel _; unfold prem_gen; destruct F; [congruence|rewrite EN; reflexivity]|].
    split; [apply (norm_nil S (mok vo) K)|]. eexists. apply number_pseudo; assumption.
  - destruct (up_spec G NG) as [NG' RG]. destruct (up_spec F NF) as [NF' RF].
    destruct (prem_core_ok (vuniv v) Hu K HK HD compress_v HCv v (up G) (up F) b NG' NF' (up_ne F NF Fne)
      (topp_univ _ v _ eq_refl) (topp_univ _ v _ eq_refl)) as (R & (fuel0 & E) & NR & Qs & PS); [rewrite up_deg; assumption|].
    destruct (down_spec R NR) as [ND RD].
    exists (down R). split; [exists fuel0; intros fuel Hf|split; [exact ND|]].
    + unfold prem_gen. destruct F as [|t r]; [congruence|]. rewrite EN. fold up. rewrite (E fuel Hf). reflexivity.
    + exists Qs. apply (pseudo_of (vuniv v) Hu) in PS; [|assumption|assumption].
      apply (pseudo_div_req b _ _ _ _ _ _ _ _ RG RF (reflexivity _) (symmetry RD) PS).
Qed.
Lemma pquo_number_ok G F (b : bool) : norm G -> norm F -> is_number F = true -> p_degree G v < 2 ^ 63 ->
  exists Q, pquo_number K S compress G F (p_degree G v) = Ok (Q, []) /\ norm Q /\
   pseudo_div K v b (graw G) (graw F) (graw Q) (graw []).
Proof.
  intros NG NF EN Hb. destruct (p_degree_spec vo Hvo S HSS K HK G v NG) as [PG _].
  assert (X : exists Q, pquo_number K S compress G F (p_degree G v) = Ok (Q, []) /\ norm Q /\
     req K (graw Q) (rmul K (graw G) (rpow K (graw F) (Z.to_nat (p_degree G v))))).
  { unfold pquo_number. destruct (Z.eqb_spec (p_degree G v) 0) as [e|e]; cbn [negb].
    - exists G. split; [reflexivity|]. split; [exact NG|]. rewrite e. cbn [Z.to_nat rpow]. ring.
    - destruct (p_pow_ok S (mok vo) sm K (HS vo Hvo S HSS) HK HD compress HC F (p_degree G v) NF ltac:(lia)) as (P & EP & NP & RP).
      rewrite EP. cbn [obind].
      destruct (p_mul_ok S (mok vo) sm K (HS vo Hvo S HSS) HK HD compress G P) as (Q & EQ & NQ & RQ); [split; apply HC; assumption|assumption|assumption|].
      rewrite EQ. exists Q. split; [reflexivity|]. split; [exact NQ|]. rewrite RQ, RP. reflexivity. }
  destruct X as (Q & EQ & NQ & RQ). exists Q. split; [exact EQ|]. split; [exact NQ|].
  apply (pseudo_div_req b _ _ _ _ _ _ _ _ (reflexivity _) (reflexivity _) (symmetry RQ) (reflexivity _) (number_pseudo b G F NG NF EN)).
Qed.
Lemma pquo_conv_ok G F b : norm G -> norm F -> F <> [] -> p_degree G v < 2 ^ 63 ->
  exists Q R, (exists fuel0, forall fuel, (fuel0 <= fuel)%nat -> pquo_conv K vo gt compress_v ms1 ms2 s1 s2 fuel G F v b = Ok (Q, R)) /\ norm Q /\ norm R /\
    pseudo_div K v b (graw G) (graw F) (graw Q) (graw R).
Proof.
  intros NG NF Fne Hb. destruct (up_spec G NG) as [NG' RG]. destruct (up_spec F NF) as [NF' RF].
  destruct (pquo_core_ok (vuniv v) Hu K HK HD compress_v HCv v (up G) (up F) b NG' NF' (up_ne F NF Fne)
      (topp_univ _ v _ eq_refl) (topp_univ _ v _ eq_refl)) as (Q & R & (fuel0 & E) & NQ & NR & PS); [rewrite up_deg; assumption|].
  destruct (down_spec R NR) as [NDR RDR]. destruct (down_spec Q NQ) as [NDQ RDQ].
  exists (down Q), (down R). split; [exists fuel0; intros fuel Hf|split; [exact NDQ|split; [exact NDR|]]].
  - unfold pquo_conv. fold up. rewrite (E fuel Hf). reflexivity.
  - apply (pseudo_of (vuniv v) Hu) in PS; [|assumption|assumption].
    apply (pseudo_div_req b _ _ _ _ _ _ _ _ RG RF (symmetry RDQ) (symmetry RDR) PS).
Qed.
Theorem pquo_gen_ok G F b : norm G -> norm F -> F <> [] -> p_degree G v < 2 ^ 63 ->
  exists Q R, (exists fuel0, forall fuel, (fuel0 <= fuel)%nat -> pquo_gen K vo S compress compress_v ms1 ms2 s1 s2 fuel G F v b = Ok (Q, R)) /\ norm Q /\ norm R /\
    pseudo_div K v b (graw G) (graw F) (graw Q) (graw R).
Proof.
  intros NG NF Fne Hb. unfold pquo_gen. destruct F as [|t r] eqn:EF; [congruence|]. rewrite <- EF in *. destruct (is_number F) eqn:EN.
  - destruct (pquo_number_ok G F b NG NF EN Hb) as (Q & EQ & NQ & P). exists Q, []. split; [exists 0%nat; intros _ _; exact EQ|].
    split; [exact NQ|]. split; [apply (norm_nil S (mok vo) K)|exact P].
  - apply pquo_conv_ok; assumption.
Qed.

(** lex orders *)
Section Lex.
Hypothesis (EL : S = lexS vo).
Lemma lex_direct_top G F : norm G -> norm F -> F <> [] -> is_number F = false -> lex_direct vo G F v = true -> topp vo v G /\ topp vo v F.
Proof.
  rewrite EL. intros NG NF Fne EN E. unfold lex_direct in E. apply andb_true_iff in E as [E1 E2].
  assert (X : forall p : poly, normal (mok vo) (lex_gt vo) K p -> is_number p = false -> N.eqb v (first_var p) || vo v (first_var p) = true -> topp vo v p).
  { intros p Np Enp Ev. destruct (not_number_head vo K p Np Enp) as (t & r & -> & Em).
    pose proof (first_top vo Hvo K r t Np Em) as T. apply orb_true_iff in Ev as [Ev|Ev].
    - apply N.eqb_eq in Ev. rewrite Ev. exact T.
    - unfold topp in *. eapply Forall_impl; [|exact T]. cbv beta. intros u Tu. unfold topm in *. eapply Forall_impl; [|exact Tu]. cbv beta.
      intros w [Hw|Hw]; right; [rewrite Hw; exact Ev|apply (vo_trans vo Hvo _ _ _ Ev Hw)]. }
  split; [|apply X; assumption].
  destruct (is_number G) eqn:EG.
  - apply (is_number_spec vo K G NG) in EG as [->|[c ->]]; [constructor|]. constructor; [constructor|constructor].
  - cbn [orb] in E2. apply X; assumption.
Qed.
Theorem prem_lex_ok G F b : norm G -> norm F -> F <> [] -> (b = true -> p_degree G v < 2 ^ 63) ->
  exists R, (exists fuel0, forall fuel, (fuel0 <= fuel)%nat -> prem_lex K vo compress compress_v ms1 ms2 s1 s2 fuel G F v b = Ok R) /\ norm R /\
    exists Qs, pseudo_div K v b (graw G) (graw F) Qs (graw R).
Proof.
  intros NG NF Fne Hb. destruct (is_number F || negb (lex_direct vo G F v)) eqn:EC.
  - destruct (prem_gen_ok G F b NG NF Fne Hb) as (R & (fuel0 & E) & NR & X). exists R. split; [|split; [exact NR|exact X]].
    exists fuel0. intros fuel Hf. specialize (E fuel Hf). rewrite EL in E. unfold prem_lex, prem_gen in *. destruct F as [|t r]; [congruence|].
    destruct (is_number (t :: r)); [exact E|]. cbn [orb] in EC. apply negb_true_iff in EC. rewrite EC. exact E.
  - apply orb_false_iff in EC as [EN ED]. apply negb_false_iff in ED.
    destruct (lex_direct_top G F NG NF Fne EN ED) as [TG TF].
    assert (NG' := NG). assert (NF' := NF). assert (HC' := HC). rewrite EL in NG', NF', HC'.
    destruct (prem_core_ok vo Hvo K HK HD compress HC' v G F b NG' NF' Fne TG TF Hb) as (R & (fuel0 & E) & NR & Qs & PS).
    exists R. split; [|split].
    + exists fuel0. intros fuel Hf. unfold prem_lex. destruct F as [|t r]; [congruence|]. rewrite EN, ED. apply E, Hf.
    + rewrite EL. exact NR.
    + exists Qs. apply (pseudo_of vo Hvo); assumption.
Qed.
Theorem pquo_lex_ok G F b : norm G -> norm F -> F <> [] -> p_degree G v < 2 ^ 63 ->
  exists Q R, (exists fuel0, forall fuel, (fuel0 <= fuel)%nat -> pquo_lex K vo compress compress_v ms1 ms2 s1 s2 fuel G F v b = Ok (Q, R)) /\ norm Q /\ norm R /\
    pseudo_div K v b (graw G) (graw F) (graw Q) (graw R).
Proof.
  intros NG NF Fne Hb. assert (NG' := NG). assert (NF' := NF). assert (HC' := HC). rewrite EL in NG', NF', HC'.
  unfold pquo_lex. destruct F as [|t r] eqn:EF; [congruence|]. rewrite <- EF in *. destruct (is_number F) eqn:EN.
  - rewrite (p_degree_lex_spec vo Hvo K G v NG'). rewrite <- EL.
    destruct (pquo_number_ok G F b NG NF EN Hb) as (Q & EQ & NQ & P). exists Q, []. split; [exists 0%nat; intros _ _; exact EQ|].
    split; [exact NQ|]. split; [apply (norm_nil S (mok vo) K)|exact P].
  - destruct (lex_direct vo G F v) eqn:ED.
    + destruct (lex_direct_top G F NG NF Fne EN ED) as [TG TF].
      destruct (pquo_core_ok vo Hvo K HK HD compress HC' v G F b NG' NF' Fne TG TF Hb) as (Q & R & E & NQ & NR & PS).
      exists Q, R. split; [exact E|]. rewrite EL. split; [exact NQ|]. split; [exact NR|]. apply (pseudo_of vo Hvo); assumption.
    + pose proof (pquo_conv_ok G F b NG NF Fne Hb) as X. rewrite EL in *. exact X.
Qed.
End Lex.
End W.
