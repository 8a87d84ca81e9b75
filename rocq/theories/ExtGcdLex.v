(** * The extended gcd of multivariate integer polynomials in a lex order (ExtGcd.v, [mext]). *)
From Coq Require Import Ring_theory Ring Setoid Morphisms Znumtheory Sorting.Sorted.
From Verif Require Import Prelude Coef Spec SpecProofs SpecOps SpecOpsProofs GcdDom GcdPoly GcdMath OrderSpec PairVec PairVecProofs
  Mono MonoProofs MonoStruct MonoStructProofs Library LibraryProofs Heap Poly PolyMulProofs PolyCmpProofs Div PolyDivProofs PolyOps MonoOpsProofs PolyOpsGen PolyOpsProofs PolyOps2Proofs ConvertProofs PolyOps3Proofs
  Prem PremProofs GcdHom GcdLex Zp NumSpec ZpProofs SortProofs UGcd ExtGcd.
Local Open Scope Z_scope.
Local Notation msort_ok vo ms := (sort_ok (fun _ : var => True) vo ms).

Local Notation K := Zc.
Local Notation HD := Zc_domain.
Local Notation HG := Z_cgcd.
Local Instance HK : ring_ok K := domain_ring K Zc_domain.
Add Ring Rring : (rring K HK) (setoid (req_equiv K) (rring_ext K HK)).

(** ** integers *)
Lemma zext_loop_ok a b n : forall r0 r1 s0 s1 t0 t1, Z.abs r1 < Z.of_nat n ->
  r0 = s0 * a + t0 * b -> r1 = s1 * a + t1 * b ->
  exists r s t, (forall fuel, (n <= fuel)%nat -> zext_loop fuel r0 r1 s0 s1 t0 t1 = Ok (r, s, t)) /\ r = s * a + t * b /\
    (r | r0) /\ (r | r1).
Proof.
  induction n as [|n IH]; intros r0 r1 s0 s1 t0 t1 Hn E0 E1; [lia|].
  destruct (Z.eq_dec r1 0) as [->|Nz].
  - exists r0, s0, t0. split; [intros [|f] _; reflexivity|]. split; [exact E0|]. split; [apply Z.divide_refl|apply Z.divide_0_r].
  - set (q := Z.quot r0 r1). pose proof (Z.quot_rem' r0 r1) as QR. pose proof (Z.rem_bound_abs r0 r1 Nz) as RB.
    destruct (IH r1 (r0 - q * r1) s1 (s0 - q * s1) t1 (t0 - q * t1)) as (r & s & t & T & E & D0 & D1).
    + fold q in QR. replace (r0 - q * r1) with (Z.rem r0 r1) by (clear - QR; lia). clear - RB Hn. lia.
    + exact E1.
    + rewrite E0, E1. ring.
    + exists r, s, t. split.
      * intros [|f] Hf; [lia|]. cbn [zext_loop]. destruct (Z.eqb_spec r1 0); [contradiction|]. apply T. lia.
      * split; [exact E|]. split; [|exact D0]. replace r0 with ((r0 - q * r1) + q * r1) by ring. apply Z.divide_add_r; [exact D1|apply Z.divide_mul_r, D0].
Qed.

Section Lex.
Context (vo : vorder) (Hvo : vorder_ok vo).
Notation S := (lexS vo).
Notation mp := (poly Z).
Context (compress : mp -> mp -> outcome (option mp)) (compress_v : var -> mp -> mp -> outcome (option mp)).
Context (ms1 : var -> list (var * Z) -> list (var * Z)) (ms2 : list (var * Z) -> list (var * Z)) (s1 : var -> mp -> mp) (s2 : mp -> mp).
Context (HC : comp_all S (mok vo) sm K compress) (HCv : forall v, comp_all (lexS (vuniv v)) (mok (vuniv v)) sm K (compress_v v)).
Context (Hm1 : forall v, msort_ok (vuniv v) (ms1 v)) (Hm2 : msort_ok vo ms2).
Context (Hs1 : forall v, sort_ok (mok (vuniv v)) (lex_gt (vuniv v)) (s1 v)) (Hs2 : sort_ok (mok vo) (lex_gt vo) s2).
Notation norm := (normal (mok vo) (m_gt S) K).
Notation graw := (graw sm).
Notation "a == b" := (req K a b) (at level 70).
Notation "a %| b" := (rdivides K a b) (at level 70).
Let HS := lexS_ok vo Hvo.
Lemma Hu v : vorder_ok (vuniv v). Proof. apply lib_vorder_ok. constructor. Qed.

Lemma mnorm_id p : norm p -> mnorm vo s2 p = p.
Proof. intros N. apply (normalization_id (mok vo) (m_gt S) (m_eq S) K (ms_order _ _ _ HS) (ms_eq _ _ _ HS) HK s2 p N). Qed.
Lemma mk_const c : norm (make_const c) /\ graw (make_const c) == rconst c.
Proof.
  unfold make_const. destruct (Z.eqb_spec c 0) as [->|n].
  - split; [split; constructor; constructor|]. symmetry. apply (rconst_0 K HD).
  - split; [|reflexivity]. split; [repeat constructor|]. split; [repeat constructor|repeat constructor; exact n].
Qed.
Lemma mmul a b : norm a -> norm b -> exists c, p_mul S K compress a b = Ok c /\ norm c /\ graw c == rmul K (graw a) (graw b).
Proof. intros A B. destruct (p_mul_ok S (mok vo) sm K HS HK HD compress a b (conj (HC a b A B) (HC b a B A)) A B) as (c & E & N & R). exists c. auto. Qed.
Lemma lc_power_ok k : forall acc lc, norm acc -> norm lc ->
  exists l, lc_power vo compress s2 k acc lc = Ok l /\ norm l /\ graw l == rmul K (graw acc) (rpow K (graw lc) k).
Proof.
  induction k as [|k IH]; intros acc lc NA NL; cbn [lc_power rpow].
  - exists acc. split; [reflexivity|]. split; [exact NA|ring].
  - destruct (mmul acc lc NA NL) as (m & E & N & R). rewrite E. cbn [obind]. rewrite (mnorm_id m N).
    destruct (IH m lc N NL) as (l & E' & N' & R'). exists l. split; [exact E'|]. split; [exact N'|]. rewrite R', R. ring.
Qed.
Lemma mext_step_ok l q a b : norm l -> norm q -> norm a -> norm b ->
  exists c, mext_step vo compress s2 l q a b = Ok c /\ norm c /\ graw c == rsub K (rmul K (graw l) (graw a)) (rmul K (graw q) (graw b)).
Proof.
  intros Nl Nq Na Nb. unfold mext_step. destruct (mmul l a Nl Na) as (x & E1 & N1 & R1). destruct (mmul q b Nq Nb) as (y & E2 & N2 & R2).
  rewrite E1. cbn [obind]. rewrite E2. cbn [obind].
  assert (N : norm (p_sub S K x y)) by (apply (p_sub_normal S (mok vo) sm K HS HK); assumption).
  exists (p_sub S K x y). rewrite (mnorm_id _ N). split; [reflexivity|]. split; [exact N|]. rewrite (p_sub_req S (mok vo) sm K HS HK), R1, R2. reflexivity.
Qed.
Lemma pdeg_is p v : norm p -> deg_is K (graw p) v (Z.to_N (p_degree p v)) /\ 0 <= p_degree p v.
Proof. intros N. pose proof (p_degree_spec vo Hvo S (or_introl eq_refl) K HK p v N) as X. exact (conj (proj2 X) (proj1 X)). Qed.

Lemma lc_nz (p : rpoly Z) v d : ~ p == Spec.r0 -> deg_is K p v d -> ~ rcoeff K v d p == Spec.r0.
Proof.
  intros Np [Dle Dex] X.
  assert (H : exists m, coef K p m <> 0 /\ exp m v = d).
  { destruct Dex as [->|H]; [|exact H]. destruct (not_zero_coef K HD p Np) as [m Hm]. exists m. split; [exact Hm|]. specialize (Dle m Hm). lia. }
  destruct H as (m & Hm & Em). specialize (X (mdrop v m)). rewrite (coef_rcoeff K HK) in X.
  assert (E0 : exp (mdrop v m) v = 0%N) by (rewrite exp_mdrop, N.eqb_refl; reflexivity). rewrite E0 in X. cbn [N.eqb] in X. apply Hm.
  change 0 with (coef K (@Spec.r0 Z) (mdrop v m)). rewrite <- X. apply (coef_proper K HK p). intros w. cbn [exp fst snd]. rewrite !exp_mdrop.
  destruct (N.eqb_spec v w) as [e0|n]; [subst w; rewrite N.eqb_refl; lia|]. destruct (N.eqb_spec w v); [congruence|reflexivity].
Qed.
Lemma rpow_nz (p : rpoly Z) k : ~ p == Spec.r0 -> ~ rpow K p k == Spec.r0.
Proof.
  intros Np. induction k as [|k IH]; cbn [rpow].
  - intros X. specialize (X []). discriminate.
  - intros X. apply (rintegral K HD HG) in X as [X|X]; contradiction.
Qed.
Lemma rpow_free (p : rpoly Z) v k : vfree K v p -> vfree K v (rpow K p k).
Proof. intros Vp. induction k as [|k IH]; cbn [rpow]; [apply (vfree_const K)|apply (vfree_mul K HD); assumption]. Qed.

Lemma mext_loop_ok A B v n : forall r0 r1 s0 sa t0 ta, (r1 <> [] -> p_degree r1 v < Z.of_nat n) -> p_degree r0 v < 2 ^ 63 -> p_degree r1 v < 2 ^ 63 ->
  norm r0 -> norm r1 -> norm s0 -> norm sa -> norm t0 -> norm ta -> r0 <> [] ->
  graw r0 == radd (rmul K (graw s0) A) (rmul K (graw t0) B) -> graw r1 == radd (rmul K (graw sa) A) (rmul K (graw ta) B) ->
  exists r s t, (exists fuel0, forall fuel, (fuel0 <= fuel)%nat ->
      mext_loop vo compress compress_v ms1 ms2 s1 s2 fuel v r0 r1 s0 sa t0 ta = Ok (r, s, t)) /\
    norm r /\ norm s /\ norm t /\ r <> [] /\ graw r == radd (rmul K (graw s) A) (rmul K (graw t) B) /\
    (exists c, ~ c == Spec.r0 /\ vfree K v c /\ graw r %| rmul K c (graw r0)) /\ (exists c, ~ c == Spec.r0 /\ vfree K v c /\ graw r %| rmul K c (graw r1)).
Proof.
  assert (One : ~ r1 K == Spec.r0 /\ vfree K v (r1 K)).
  { split; [|apply (vfree_const K)]. intros X. specialize (X []). discriminate. }
  assert (Base : forall r0 s0 t0 : mp, forall sa ta : mp, norm r0 -> norm s0 -> norm t0 -> r0 <> [] -> graw r0 == radd (rmul K (graw s0) A) (rmul K (graw t0) B) ->
    exists r s t, (exists fuel0, forall fuel, (fuel0 <= fuel)%nat ->
      mext_loop vo compress compress_v ms1 ms2 s1 s2 fuel v r0 [] s0 sa t0 ta = Ok (r, s, t)) /\
    norm r /\ norm s /\ norm t /\ r <> [] /\ graw r == radd (rmul K (graw s) A) (rmul K (graw t) B) /\
    (exists c, ~ c == Spec.r0 /\ vfree K v c /\ graw r %| rmul K c (graw r0)) /\ (exists c, ~ c == Spec.r0 /\ vfree K v c /\ graw r %| rmul K c (graw []))).
  { intros r0 s0 t0 sa ta N0 M0 L0 Ne E0. exists r0, s0, t0. split; [exists 0%nat; intros [|f] _; reflexivity|]. repeat (split; [assumption|]).
    split; exists (r1 K); (split; [apply One|split; [apply One|]]); apply (rd_mull K HD); [apply (rd_refl K HD)|]. change (graw r0 %| @Spec.r0 Z). apply (rd_0 K HD). }
  induction n as [|n IH]; intros r0 r1 s0 sa t0 ta Hn B0 B1 N0 N1 M0 M1 L0 L1 Ne E0 E1.
  - destruct r1 as [|g r1]; [apply Base; assumption|]. exfalso. specialize (Hn ltac:(discriminate)). pose proof (proj2 (pdeg_is _ v N1)). cbn [Z.of_nat] in Hn. lia.
  - destruct r1 as [|g r1]; [apply Base; assumption|]. set (G := g :: r1) in *. assert (Gne : G <> []) by discriminate.
    destruct (pquo_lex_ok vo Hvo S (or_introl eq_refl) K HK HD v compress (compress_v v) (Hu v) HC (HCv v) (ms1 v) ms2 (s1 v) s2 (Hm1 v) Hm2 (Hs1 v) Hs2
      eq_refl r0 G true N0 N1 Gne B0) as (Q & R & (f1 & F1) & NQ & NR & dG & dF & k & D0 & D1 & DR & Kle & Keq & ER).
    specialize (Keq eq_refl).
    destruct (pdeg_is r0 v N0) as [D0' P0]. destruct (pdeg_is G v N1) as [D1' P1].
    pose proof (deg_is_unique K _ _ _ _ D0 D0') as U0. pose proof (deg_is_unique K _ _ _ _ D1 D1') as U1. subst dG dF.
    pose proof (leadcoeff_v_spec vo Hvo S (or_introl eq_refl) K HK s2 G v N1 Hs2) as LS.
    destruct (leadcoeff_v K vo (m_gt S) s2 G v) as [lc d] eqn:El. destruct LS as (Ed & Nlc & Elc). rewrite Ed in Elc.
    set (kk := p_degree_lex vo r0 v - p_degree_lex vo G v + 1).
    assert (Ek : Z.to_nat kk = k).
    { unfold kk. rewrite (p_degree_lex_spec vo Hvo K r0 v N0), (p_degree_lex_spec vo Hvo K G v N1). clear - Keq P0 P1. lia. }
    destruct (mk_const 1) as [N_1 R_1].
    destruct (lc_power_ok k (make_const 1) lc N_1 Nlc) as (l & Ell & Nl & Rl).
    assert (Rl' : graw l == rpow K (rcoeff K v (Z.to_N (p_degree G v)) (graw G)) k).
    { rewrite Rl, R_1. change (rconst 1) with (Spec.r1 K). rewrite (rpow_proper K HK _ _ Elc k k eq_refl). ring. }
    rewrite <- Rl' in ER.
    destruct (mext_step_ok l Q s0 sa Nl NQ M0 M1) as (sb & Es & Ns & Rs).
    destruct (mext_step_ok l Q t0 ta Nl NQ L0 L1) as (tb & Et & Nt & Rt).
    assert (ER' : graw R == rsub K (rmul K (graw l) (graw r0)) (rmul K (graw Q) (graw G))) by (rewrite ER; ring).
    assert (Dlt : R <> [] -> p_degree R v < p_degree G v).
    { intros Rne. destruct (pdeg_is R v NR) as [[_ [Z0|(m & Hm & Em)]] PR].
      - destruct (Z.eq_dec (p_degree G v) 0) as [Z1|Z1]; [|lia]. exfalso. apply (nz_iff vo Hvo K HD R NR) in Rne. apply Rne. intros s.
        destruct (c0_dec K HK (coef K (graw R) s)) as [C0|C0]; [exact C0|]. specialize (DR s C0). rewrite Z1 in DR. cbn in DR. lia.
      - specialize (DR m Hm). lia. }
    destruct (IH G R sa sb ta tb) as (r & s & t & (f2 & F2) & NN & NS & NT & Nr & EE & (c1 & C1 & V1 & Dv1) & (c2 & C2 & V2 & Dv2)); try assumption.
    + intros Rne. specialize (Dlt Rne). specialize (Hn Gne). lia.
    + destruct R as [|tr R']; [cbn; lia|]. specialize (Dlt ltac:(discriminate)). lia.
    + rewrite ER', Rs, Rt, E0, E1. ring.
    + exists r, s, t. split.
      { exists (Datatypes.S (f1 + f2)). intros [|f] Hf; [lia|]. cbn [mext_loop]. unfold G at 1. rewrite F1 by lia. cbn [obind]. fold G. rewrite El. cbn [fst].
        fold kk. rewrite Ek, Ell. cbn [obind]. rewrite Es. cbn [obind]. rewrite Et. cbn [obind]. apply F2. lia. }
      repeat (split; [assumption|]). split; [|exists c1; auto].
      exists (rmul K (rmul K c1 c2) (graw l)).
      assert (Nzl : ~ graw l == Spec.r0 /\ vfree K v (graw l)).
      { split.
        - rewrite Rl'. apply rpow_nz, lc_nz; [exact (proj1 (nz_iff vo Hvo K HD G N1) Gne)|exact D1].
        - apply (vfree_proper K v _ _ Rl'), rpow_free, (rcoeff_free K HD). }
      destruct Nzl as [Nzl Vl]. split; [|split].
      * intros X. apply (rintegral K HD HG) in X as [X|X]; [|contradiction]. apply (rintegral K HD HG) in X as [X|X]; contradiction.
      * repeat apply (vfree_mul K HD); assumption.
      * assert (X : rmul K (rmul K (rmul K c1 c2) (graw l)) (graw r0) == radd (rmul K (rmul K c2 (graw Q)) (rmul K c1 (graw G))) (rmul K c1 (rmul K c2 (graw R)))).
        { rewrite ER'. ring. }
        apply (rdivides_proper K HD _ _ (reflexivity _) _ _ X). apply (rd_add K HD); apply (rd_mull K HD); assumption.
Qed.

Lemma numbers_ok a b : a <> 0 -> b <> 0 ->
  exists r s t n, (forall fuel, (n <= fuel)%nat -> ext_numbers fuel a b = Ok (make_const r, make_const s, make_const t)) /\
    r = Z.gcd a b /\ r = s * a + t * b.
Proof.
  intros Na Nb. unfold ext_numbers. rewrite Z.gcd_abs_l, Z.gcd_abs_r. pose proof (Z.gcd_nonneg a b) as Pg.
  destruct (Z.eqb_spec (Z.gcd a b) (Z.abs a)) as [Ea|Ea].
  { exists (Z.gcd a b), (if a >? 0 then 1 else -1), 0, 0%nat. split; [reflexivity|]. split; [reflexivity|]. rewrite Ea. destruct (Z.gtb_spec a 0); lia. }
  destruct (Z.eqb_spec (Z.gcd a b) (Z.abs b)) as [Eb|Eb].
  { exists (Z.gcd a b), 0, (if b >? 0 then 1 else -1), 0%nat. split; [reflexivity|]. split; [reflexivity|]. rewrite Eb. destruct (Z.gtb_spec b 0); lia. }
  destruct (zext_loop_ok a b (Datatypes.S (Z.to_nat (Z.abs b))) a b 1 0 0 1) as (r & s & t & T & E & D1 & D2); [lia|lia|lia|].
  assert (G : Z.abs r = Z.gcd a b).
  { apply Z.divide_antisym_nonneg; [lia|lia| |].
    - apply Z.gcd_greatest; apply Z.divide_abs_l; assumption.
    - apply Z.divide_abs_r. rewrite E. apply Z.divide_add_r; apply Z.divide_mul_r; [apply Z.gcd_divide_l|apply Z.gcd_divide_r]. }
  destruct (Z.ltb_spec r 0) as [L|L].
  - exists (- r), (- s), (- t), (Datatypes.S (Z.to_nat (Z.abs b))). split.
    + intros fuel Hf. rewrite (T fuel Hf). cbn [obind]. destruct (Z.ltb_spec r 0); [reflexivity|lia].
    + split; [lia|]. rewrite E. ring.
  - exists r, s, t, (Datatypes.S (Z.to_nat (Z.abs b))). split.
    + intros fuel Hf. rewrite (T fuel Hf). cbn [obind]. destruct (Z.ltb_spec r 0); [lia|reflexivity].
    + split; [lia|exact E].
Qed.
Lemma mext_neg_ok p : norm p -> exists q, mext_neg vo compress s2 p = Ok q /\ norm q /\ graw q == ropp K (graw p).
Proof.
  intros N. unfold mext_neg. destruct (mk_const (-1)) as [N1 R1]. destruct (mmul p _ N N1) as (m & E & Nm & R). rewrite E. cbn [obind].
  rewrite (mnorm_id m Nm). exists m. split; [reflexivity|]. split; [exact Nm|]. rewrite R, R1.
  assert (O : rconst (-1) == ropp K (r1 K)) by (apply (req_single K); reflexivity). rewrite O. ring.
Qed.
Definition ext_result (F G r s t : mp) : Prop :=
  norm r /\ norm s /\ norm t /\ graw r == radd (rmul K (graw s) (graw F)) (rmul K (graw t) (graw G)) /\
  (F <> [] \/ G <> [] -> r <> []) /\
  (exists v, (F = [] \/ G = [] \/ v = ext_var vo F G) /\
     (exists c, ~ c == r0 /\ vfree K v c /\ graw r %| rmul K c (graw F)) /\ (exists c, ~ c == r0 /\ vfree K v c /\ graw r %| rmul K c (graw G))).
Lemma first_null F : norm F -> vfree K 0%N (graw F) -> first_var F = 0%N -> is_number F = true.
Proof.
  intros N V E. destruct (is_number F) eqn:EN; [reflexivity|exfalso]. destruct (not_number_head vo K F N EN) as (t & r & -> & Hm).
  pose proof (proj1 (vfree_zexp vo Hvo K HD (t :: r) 0%N N) V) as Z0. apply Forall_inv in Z0.
  pose proof (first_top vo Hvo K r t N Hm) as T. unfold topp in T. apply Forall_inv in T.
  rewrite E in T.
  destruct (first_head vo Hvo K 0%N t r N T Hm) as [(_ & _ & P)|[P _]]; [lia|contradiction].
Qed.
Theorem mext_ok F G : norm F -> norm G -> vfree K 0%N (graw F) -> vfree K 0%N (graw G) -> (forall v, p_degree F v < 2 ^ 63) -> (forall v, p_degree G v < 2 ^ 63) ->
  exists r s t, (exists fuel0, forall fuel, (fuel0 <= fuel)%nat -> mext vo compress compress_v ms1 ms2 s1 s2 fuel F G = Ok (r, s, t)) /\
    ext_result F G r s t.
Proof.
  intros NF NG VF VG BF BG.
  assert (One : ~ r1 K == r0) by (intros X; specialize (X []); discriminate).
  destruct (mk_const 0) as [N_0 R_0]. destruct (mk_const 1) as [N_1 R_1]. change (rconst 1) with (r1 K) in R_1. rewrite (rconst_0 K HD) in R_0.
  destruct F as [|tf F'].
  { exists G, (make_const 0), (make_const 1). split; [exists 0%nat; reflexivity|]. split; [exact NG|]. split; [exact N_0|]. split; [exact N_1|].
    split; [rewrite R_0, R_1; ring|]. split; [intros [H|H]; [congruence|exact H]|]. exists 0%N. split; [auto|]. split; exists (r1 K); (split; [exact One|]); (split; [apply (vfree_const K)|]); apply (rd_mull K HD).
    - change (graw G %| @r0 Z). apply (rd_0 K HD).
    - apply (rd_refl K HD). }
  destruct G as [|tg G'].
  { exists (tf :: F'), (make_const 1), (make_const 0). split; [exists 0%nat; reflexivity|]. split; [exact NF|]. split; [exact N_1|]. split; [exact N_0|].
    split; [rewrite R_0, R_1; ring|]. split; [discriminate|]. exists 0%N. split; [auto|]. split; exists (r1 K); (split; [exact One|]); (split; [apply (vfree_const K)|]); apply (rd_mull K HD).
    - apply (rd_refl K HD).
    - change (graw (tf :: F') %| @r0 Z). apply (rd_0 K HD). }
  set (F := tf :: F') in *. set (G := tg :: G') in *.
  destruct (is_number F && is_number G) eqn:EN.
  - apply andb_prop in EN as [EF EG]. apply (is_number_spec vo K F NF) in EF as [EF|[a EF]]; [discriminate|]. apply (is_number_spec vo K G NG) in EG as [EG|[b EG]]; [discriminate|].
    assert (Na : a <> 0). { destruct NF as (_ & _ & Z1). rewrite EF in Z1. apply Forall_inv in Z1. exact Z1. }
    assert (Nb : b <> 0). { destruct NG as (_ & _ & Z1). rewrite EG in Z1. apply Forall_inv in Z1. exact Z1. }
    destruct (numbers_ok a b Na Nb) as (r & s & t & n & T & Er & E). exists (make_const r), (make_const s), (make_const t). split.
    { exists n. intros fuel Hf. unfold mext. rewrite EF, EG. cbn [is_number]. apply (T fuel Hf). }
    destruct (mk_const r) as [A1 A2]. destruct (mk_const s) as [B1 B2]. destruct (mk_const t) as [C1 C2].
    assert (RF : graw F == rconst a) by (rewrite EF; reflexivity). assert (RG : graw G == rconst b) by (rewrite EG; reflexivity).
    split; [exact A1|]. split; [exact B1|]. split; [exact C1|]. split; [|split; [|exists (ext_var vo F G); split; [auto|split]]].
    + rewrite A2, B2, C2, RF, RG, !(rconst_mul K). cbn [cmul Zc]. rewrite E. intros m. unfold radd, rconst. cbn [app]. cbn [coef]. destruct (meqb [] m); cbn [cadd Zc]; ring.
    + intros _ X. assert (Z.gcd a b <> 0) by (intros Y; apply Z.gcd_eq_0_l in Y; contradiction). apply (f_equal graw) in X. unfold make_const in X.
      destruct (Z.eqb_spec r 0); [congruence|discriminate].
    + destruct (Z.gcd_divide_l a b) as [q Eq]. exists (r1 K). split; [exact One|]. split; [apply (vfree_const K)|]. apply (rd_mull K HD). exists (rconst q). rewrite RF, A2, (rconst_mul K), Er. cbn [cmul Zc]. rewrite <- Eq. reflexivity.
    + destruct (Z.gcd_divide_r a b) as [q Eq]. exists (r1 K). split; [exact One|]. split; [apply (vfree_const K)|]. apply (rd_mull K HD). exists (rconst q). rewrite RG, A2, (rconst_mul K), Er. cbn [cmul Zc]. rewrite <- Eq. reflexivity.
  - set (v := ext_var vo F G). destruct (N.eqb_spec v 0) as [V0|V0].
    { exfalso. unfold v, ext_var in V0. assert (FF : first_var F = 0%N /\ first_var G = 0%N).
      { destruct (N.eqb_spec (first_var F) 0) as [e|n].
        - cbn [orb] in V0. auto.
        - cbn [orb] in V0. destruct (N.eqb_spec (first_var G) 0) as [e|n']; cbn [negb andb] in V0; [contradiction|]. destruct (vo (first_var F) (first_var G)); contradiction. }
      destruct FF as [F0 G0]. rewrite (first_null F NF VF F0), (first_null G NG VG G0) in EN. discriminate. }
    destruct (mext_loop_ok (graw F) (graw G) v (Datatypes.S (Z.to_nat (p_degree G v))) F G (make_const 1) (make_const 0) (make_const 0) (make_const 1))
      as (r & s & t & (f & T) & Nr & Ns & Nt & Rne & E & D1 & D2); try assumption; try apply BF; try apply BG; try discriminate.
    { intros _. pose proof (proj2 (pdeg_is G v NG)). lia. }
    { rewrite R_0, R_1. ring. }
    { rewrite R_0, R_1. ring. }
    destruct r as [|l r']; [congruence|]. destruct (snd l <? 0) eqn:El.
    + destruct (mext_neg_ok _ Nr) as (rn & Er & Nrn & Rr). destruct (mext_neg_ok _ Ns) as (sn & Es & Nsn & Rs). destruct (mext_neg_ok _ Nt) as (tn & Et & Ntn & Rt).
      exists rn, sn, tn. split.
      { exists f. intros fuel Hf. unfold mext. cbv beta iota zeta. unfold F at 1, G at 1. fold F. fold G. rewrite EN. fold v. destruct (N.eqb_spec v 0); [contradiction|].
        rewrite (T fuel Hf). cbn [obind]. rewrite El, Er. cbn [obind]. rewrite Es. cbn [obind]. rewrite Et. reflexivity. }
      split; [exact Nrn|]. split; [exact Nsn|]. split; [exact Ntn|]. split; [rewrite Rr, Rs, Rt, E; ring|]. split.
      { intros _ ->. apply (nz_iff vo Hvo K HD _ Nr) in Rne. apply Rne. transitivity (ropp K (ropp K (graw (l :: r')))); [ring|]. rewrite <- Rr. change (graw []) with (@r0 Z). ring. }
      exists v. split; [auto|].
      assert (Op : forall X, graw (l :: r') %| X -> graw rn %| X) by (intros X [q Eq]; exists (ropp K q); rewrite Eq, Rr; ring).
      destruct D1 as (c1 & N1 & V1 & D1). destruct D2 as (c2 & N2 & V2 & D2). split; [exists c1|exists c2]; auto.
    + exists (l :: r'), s, t. split.
      { exists f. intros fuel Hf. unfold mext. cbv beta iota zeta. unfold F at 1, G at 1. fold F. fold G. rewrite EN. fold v. destruct (N.eqb_spec v 0); [contradiction|].
        rewrite (T fuel Hf). cbn [obind]. rewrite El. reflexivity. }
      split; [exact Nr|]. split; [exact Ns|]. split; [exact Nt|]. split; [exact E|]. split; [discriminate|]. exists v. auto.
Qed.
End Lex.
