(** * C19, C20, C23-C26: scalar operations, substitution, derivative, degrees and coefficients, conversions.

    [lib_poly vo S] ranges over the multivariate polynomial types: a variable order [vo] of the library and
    the lex or graded-lex order on it.  [graw sm p] is the mathematical polynomial a value denotes.  [srt],
    [ms] range over all behaviours of std::sort ([sort_ok]). *)
From Coq Require Import QArith.
From Verif Require Import Prelude Coef Spec SpecProofs SpecOps SpecOpsProofs OrderSpec PairVec PairVecProofs Mono MonoProofs Heap
  MonoStruct MonoStructProofs Library LibraryProofs Poly PolyMulProofs PolyOps MonoOpsProofs PolyOpsGen PolyOpsProofs
  PolyOps2Proofs ConvertProofs PolyOps3Proofs ConvertQQ SortProofs QQ NumSpec QQProofs ZpProofs Props_Poly.
Local Open Scope Z_scope.

(** Small ring facts. *)
Section R.
Context {C : Type} (K : coefs C) (HK : ring_ok K).
Add Ring Kr : (ring_laws K HK).
Lemma opp_0 : copp K (c0 K) = c0 K. Proof. ring. Qed.
Lemma mul_0_r a : cmul K a (c0 K) = c0 K. Proof. ring. Qed.
Lemma add_opp_0 a b : cadd K a (copp K b) = c0 K -> a = b.
Proof. intros E. transitivity (cadd K (cadd K a (copp K b)) b); [ring|]. rewrite E. ring. Qed.
Lemma opp_is_0 b : copp K b = c0 K -> b = c0 K.
Proof. intros E. transitivity (copp K (copp K b)); [ring|]. rewrite E. ring. Qed.
Lemma mul_cnat1 : cmul K (c1 K) (cnat K 1) = c1 K. Proof. cbn [cnat]. ring. Qed.
End R.

Definition lib_poly (vo : vorder) (S : monos mono) : Prop := lib_vorder vo /\ (S = lexS vo \/ S = grlexS vo).
Lemma lib_poly_monos vo S : lib_poly vo S -> lib_monos S (mok vo) sm.
Proof. intros [Hv [->| ->]]; constructor; exact Hv. Qed.
Notation msort_ok vo ms := (sort_ok (fun _ : var => True) vo ms).

(** ** C19: adding a scalar or a monomial *)
Theorem C19_add_scalar_partial : forall vo S C (K : coefs C), lib_poly vo S -> ring_ok K ->
  forall p c, normal (mok vo) (m_gt S) K p -> p <> [] ->
  exists r, add_scalar K p c = Ok r /\ (forall m, coef K (graw sm r) m = cadd K (coef K (graw sm p) m) (coef K (rconst c) m)) /\
   (c <> c0 K -> cadd K (coef K (graw sm p) []) c <> c0 K -> normal (mok vo) (m_gt S) K r).
Proof.
  intros vo S C K [Hv HS] HK p c N Pne. apply lib_vorder_ok in Hv.
  destruct (add_scalar_spec vo Hv S HS K HK p c N Pne) as (r & E & _ & _ & R & X & _). exists r. split; [exact E|]. split; [|exact X].
  intros m. rewrite (R m). apply (coef_app K HK).
Qed.
Print Assumptions C19_add_scalar_partial.
Theorem C19_sub_scalar_partial : forall vo S C (K : coefs C), lib_poly vo S -> ring_ok K ->
  forall p c, normal (mok vo) (m_gt S) K p -> p <> [] ->
  (exists r, sub_scalar K p c = Ok r /\ (forall m, coef K (graw sm r) m = csub K (coef K (graw sm p) m) (coef K (rconst c) m)) /\
    (c <> c0 K -> coef K (graw sm p) [] <> c -> normal (mok vo) (m_gt S) K r)) /\
  (exists r, scalar_sub K c p = Ok r /\ (forall m, coef K (graw sm r) m = csub K (coef K (rconst c) m) (coef K (graw sm p) m)) /\
    (c <> c0 K -> coef K (graw sm p) [] <> c -> normal (mok vo) (m_gt S) K r)).
Proof.
  intros vo S C K [Hv HS] HK p c N Pne. apply lib_vorder_ok in Hv. 
  pose proof (ring_laws K HK) as RL.
  split.
  - destruct (add_scalar_spec vo Hv S HS K HK p (copp K c) N Pne) as (r & E & _ & _ & R & X & _). exists r. split; [exact E|]. split.
    + intros m. rewrite (R m). unfold radd. rewrite (coef_app K HK), (Ring_theory.Rsub_def RL). f_equal. unfold rconst. cbn [coef].
      destruct (meqb [] m); cbn [coef]; [|symmetry; apply (opp_0 K HK)]. 
      rewrite !(Ring_theory.Radd_comm RL _ (c0 K)), !(Ring_theory.Radd_0_l RL). reflexivity.
    + intros Hc Hn. apply X; [intros E0; apply Hc, (opp_is_0 K HK), E0|intros E0; apply Hn, (add_opp_0 K HK), E0].
  - assert (Nn : normal (mok vo) (m_gt S) K (p_neg K p)) by (apply (p_neg_normal S (mok vo) K HK), N).
    assert (Pnn : p_neg K p <> []) by (destruct p; [congruence|discriminate]).
    destruct (add_scalar_spec vo Hv S HS K HK (p_neg K p) c Nn Pnn) as (r & E & _ & _ & R & X & _). exists r. split; [exact E|].
    assert (EN : forall m, coef K (graw sm (p_neg K p)) m = copp K (coef K (graw sm p) m)) by (intros m; rewrite (p_neg_req sm K p m); apply (coef_opp K HK)).
    split.
    + intros m. rewrite (R m). unfold radd. rewrite (coef_app K HK), EN, (Ring_theory.Rsub_def RL). apply (Ring_theory.Radd_comm RL).
    + intros Hc Hn. apply X; [exact Hc|]. rewrite EN, (Ring_theory.Radd_comm RL). intros E0. apply Hn. symmetry. apply (add_opp_0 K HK), E0.
Qed.
Print Assumptions C19_sub_scalar_partial.
(** The full claim is false: for p = 0 the code dereferences back() of an empty vector, and a cancelling
    constant (or c = 0) leaves a zero term, so that (x+1)-1 is not equal to x for the library's ==. *)
Theorem C19_add_scalar_refuted :
  (forall c, add_scalar Zc [] c = UB) /\
  (exists p r, normal (mok vless) (m_gt (grlexS vless)) Zc p /\ add_scalar Zc p 0 = Ok r /\ ~ normal (mok vless) (m_gt (grlexS vless)) Zc r) /\
  (exists p q r, normal (mok vless) (m_gt (grlexS vless)) Zc p /\ add_scalar Zc p 1 = Ok q /\ sub_scalar Zc q 1 = Ok r /\
     pv_equal_to (m_eq (grlexS vless)) Zc p r = false).
Proof.
  split; [reflexivity|]. split.
  - exists [(mono_var 1, 1)], [(mono_var 1, 1); (mono1, 0)]. split; [repeat constructor; discriminate|]. split; [reflexivity|].
    intros (_ & _ & H). apply Forall_inv_tail in H. apply Forall_inv in H. apply H. reflexivity.
  - exists [(mono_var 1, 1)], [(mono_var 1, 1); (mono1, 1)], [(mono_var 1, 1); (mono1, 0)].
    split; [repeat constructor; discriminate|]. repeat split.
Qed.
Print Assumptions C19_add_scalar_refuted.
Theorem C19_add_monomial : forall vo S C (K : coefs C), lib_poly vo S -> ring_ok K ->
  forall p m one, normal (mok vo) (m_gt S) K p -> mok vo m -> one <> c0 K ->
  normal (mok vo) (m_gt S) K (add_mono K S p m one) /\
  forall s, coef K (graw sm (add_mono K S p m one)) s = cadd K (coef K (graw sm p) s) (coef K [(sm m, one)] s).
Proof.
  intros vo S C K [Hv HS] HK p m one N Hm H1. apply lib_vorder_ok in Hv.
  destruct (add_mono_spec vo Hv S HS K HK p m one N Hm H1) as [A B]. split; [exact A|]. intros s. rewrite (B s). apply (coef_app K HK).
Qed.
Print Assumptions C19_add_monomial.
Example C19_example : add_scalar Zc ex_p 3 = Ok [(mono_var 1, 1); (mono1, 5)] /\ scalar_sub Zc 5 ex_p = Ok [(mono_var 1, -1); (mono1, 3)] /\
  add_mono Zc (grlexS vless) ex_p (mono_var 1) 1 = [(mono_var 1, 2); (mono1, 2)].
Proof. repeat split. Qed.

(** ** C20: scaling *)
Theorem C20_scale : forall M (S : monos M) ok sm C (K : coefs C), lib_monos S ok sm -> domain_ok K ->
  forall srt p c, normal ok (m_gt S) K p ->
  normal ok (m_gt S) K (p_scale K S srt p c) /\ forall m, coef K (graw sm (p_scale K S srt p c)) m = cmul K c (coef K (graw sm p) m).
Proof.
  intros M S ok sm C K HS HD srt p c N. apply lib_monos_ok in HS. pose proof (domain_ring K HD) as HK.
  destruct (p_scale_spec S ok sm K HS HK HD srt p c N) as [A B]. split; [exact A|]. intros m. rewrite (B m). apply (coef_scale K HK).
Qed.
Print Assumptions C20_scale.
(** Multiplying by a single term, for every multiplication hook (it is not called). *)
Theorem C20_mono_mul : forall vo S C (K : coefs C), lib_poly vo S -> domain_ok K ->
  forall compress p m c, normal (mok vo) (m_gt S) K p -> mok vo m -> c <> c0 K ->
  exists r, p_mul S K compress p [(m, c)] = Ok r /\ normal (mok vo) (m_gt S) K r /\
    req K (graw sm r) (rmul K (graw sm p) [(sm m, c)]).
Proof.
  intros vo S C K HS HD compress p m c N Hm Hc. apply lib_poly_monos in HS.
  assert (N1 : normal (mok vo) (m_gt S) K [(m, c)]).
  { split; [constructor; [exact Hm|constructor]|]. split; [repeat constructor|constructor; [exact Hc|constructor]]. }
  destruct (C12_multiplication mono S (mok vo) sm C K HS HD p [(m, c)] N N1) as (r & E & Nr & R).
  exists r. split; [|split; [exact Nr|exact R]]. rewrite <- E. unfold p_mul, pair_vec_multiplies.
  destruct p as [|t [|t' p]]; reflexivity.
Qed.
Print Assumptions C20_mono_mul.
Example C20_example : p_scale Zc (lexS vless) (fun l => l) ex_p 3 = [(mono_var 1, 3); (mono1, 6)] /\ p_scale Zc (lexS vless) (fun l => l) ex_p 0 = []
  /\ p_mul (lexS vless) Zc no_compress ex_p [(mono_var 1, 5)] = Ok [(mono_mul vless (mono_var 1) (mono_var 1), 5); (mono_var 1, 10)].
Proof. repeat split. Qed.

(** ** C23: substitution.  [rho v = Some c] when [v] is replaced by [c]; [rsubst] is characterised by being
    a ring homomorphism compatible with evaluation. *)
Theorem C23_substitution_specification : forall C (K : coefs C), ring_ok K ->
  forall rho p q,
  req K (rsubst K rho (radd p q)) (radd (rsubst K rho p) (rsubst K rho q)) /\
  req K (rsubst K rho (rmul K p q)) (rmul K (rsubst K rho p) (rsubst K rho q)) /\
  forall sg, reval K sg (rsubst K rho p) = reval K (fun v => match rho v with Some c => c | None => sg v end) p.
Proof.
  intros C K HK rho p q. split; [rewrite (rsubst_add K rho p q); reflexivity|]. split; [apply (rsubst_mul K HK)|].
  intros sg. apply (reval_rsubst K HK).
Qed.
Print Assumptions C23_substitution_specification.
Theorem C23_assign_partial : forall vo S C (K : coefs C), lib_poly vo S -> ring_ok K ->
  forall rho srt p, sort_ok (mok vo) (m_gt S) srt -> normal (mok vo) (m_gt S) K p ->
  let r := p_assign K (m_gt S) srt rho p in
  all_ok (mok vo) r /\ desc (m_gt S) r /\ req K (graw sm r) (rsubst K rho (graw sm p)).
Proof.
  intros vo S C K [Hv HS] HK rho srt p Hs N r. apply lib_vorder_ok in Hv. apply (assign_spec vo Hv S HS K HK); assumption.
Qed.
Print Assumptions C23_assign_partial.
(** Normal form holds for lex orders when the substituted variables come after all others ... *)
Theorem C23_assign_lex_trailing : forall vo C (K : coefs C), lib_vorder vo -> ring_ok K ->
  forall rho srt p, (forall v w, rho v = None -> rho w <> None -> vo v w = true) -> normal (mok vo) (lex_gt vo) K p ->
  normal (mok vo) (lex_gt vo) K (p_assign K (lex_gt vo) srt rho p).
Proof. intros vo C K Hv HK rho srt p Hl N. apply lib_vorder_ok in Hv. apply (assign_last_normal vo Hv K HK rho (fun _ => True) (fun v w _ _ => Hl v w) srt p N). apply Forall_forall. intros t _ v _. exact I. Qed.
Print Assumptions C23_assign_lex_trailing.
(** ... but not in general: x*z + y^2 - z at x = 1 (graded lex) keeps the term 0*z. *)
Definition ex_xz_y2_z : poly Z := [(re_deg [(1%N, 1); (3%N, 1)], 1); (re_deg [(2%N, 2)], 1); (re_deg [(3%N, 1)], -1)].
Theorem C23_assign_normal_refuted : normal (mok vless) (m_gt (grlexS vless)) Zc ex_xz_y2_z /\
  let srt := isort (grlex_gt vless) in sort_ok (mok vless) (m_gt (grlexS vless)) srt /\
  p_assign Zc (grlex_gt vless) srt (assign1 1%N 1) ex_xz_y2_z = [(re_deg [(2%N, 2)], 1); (re_deg [(3%N, 1)], 0)] /\
  ~ normal (mok vless) (m_gt (grlexS vless)) Zc (p_assign Zc (grlex_gt vless) srt (assign1 1%N 1) ex_xz_y2_z).
Proof.
  split; [repeat constructor; discriminate|]. cbv zeta. split.
  - apply isort_ok. apply (ms_order (grlexS vless) (mok vless) sm). apply grlexS_ok, lib_vorder_ok. constructor.
  - assert (E : p_assign Zc (grlex_gt vless) (isort (grlex_gt vless)) (assign1 1%N 1) ex_xz_y2_z = [(re_deg [(2%N, 2)], 1); (re_deg [(3%N, 1)], 0)]) by reflexivity.
    split; [exact E|]. rewrite E. intros (_ & _ & H). apply Forall_inv_tail in H. apply Forall_inv in H. apply H. reflexivity.
Qed.
Print Assumptions C23_assign_normal_refuted.
Theorem C23_univariate_evaluation : forall C (K : coefs C), ring_ok K -> forall p a,
  u_assign K p a = reval K (fun _ => a) (graw usm p).
Proof. intros C K HK p a. apply (u_assign_spec K HK). Qed.
Print Assumptions C23_univariate_evaluation.
Example C23_example : p_assign Zc (lex_gt vless) (fun l => l) (assign1 1%N 5) ex_p = [(mono1, 7)] /\ u_assign Zc [(2, 3); (0, -1)] 4 = 47.
Proof. split; reflexivity. Qed.

(** ** C24: derivative.  [rderiv] is linear, satisfies the Leibniz rule, and sends c*v^n*m to n*c*v^(n-1)*m. *)
Definition char0 {C} (K : coefs C) : Prop := forall n, (0 < n)%nat -> cnat K n <> c0 K.
Theorem C24_derivative_specification : forall C (K : coefs C), ring_ok K -> forall v p q,
  req K (rderiv K v (radd p q)) (radd (rderiv K v p) (rderiv K v q)) /\
  req K (rderiv K v (rmul K p q)) (radd (rmul K (rderiv K v p) q) (rmul K p (rderiv K v q))) /\
  (forall c, req K (rderiv K v (rconst c)) r0) /\
  (forall w, req K (rderiv K v [([(w, 1%N)], c1 K)]) (if N.eqb w v then r1 K else r0)).
Proof.
  intros C K HK v p q. pose proof (ring_laws K HK) as RL. split; [rewrite (rderiv_add K v p q); reflexivity|]. split; [apply (rderiv_leibniz K HK)|]. split.
  - intros c s. unfold rderiv, rconst, rlin. cbn [flat_map map fst snd exp app coef r0]. cbn [N.to_nat cnat].
    rewrite (mul_0_r K HK). destruct (meqb _ s); [apply (Ring_theory.Radd_0_l RL)|reflexivity].
  - intros w. unfold rderiv, rlin. cbn [flat_map map fst snd app].
    destruct (N.eqb_spec w v) as [e|n].
    + subst w. cbn [exp mdrop filter fst]. rewrite N.eqb_refl. cbn [negb]. apply (req_single K).
      * intros u. cbn [exp]. destruct (N.eqb v u); reflexivity.
      * exact (mul_cnat1 K HK).
    + intros s. cbn [exp]. destruct (N.eqb_spec w v) as [e|_]; [contradiction|]. cbn [N.add N.to_nat cnat coef r0]. rewrite (mul_0_r K HK).
      destruct (meqb _ s); [apply (Ring_theory.Radd_0_l RL)|reflexivity].
Qed.
Print Assumptions C24_derivative_specification.
Theorem C24_derivative_partial : forall vo S C (K : coefs C), lib_poly vo S -> ring_ok K ->
  forall x p, normal (mok vo) (m_gt S) K p ->
  all_ok (mok vo) (p_derivative K x p) /\ desc (m_gt S) (p_derivative K x p) /\ req K (graw sm (p_derivative K x p)) (rderiv K x (graw sm p)) /\
  (domain_ok K -> char0 K -> normal (mok vo) (m_gt S) K (p_derivative K x p)).
Proof.
  intros vo S C K [Hv HS] HK x p N. apply lib_vorder_ok in Hv. destruct (derivative_desc vo Hv S HS K x p N) as [A B].
  split; [exact A|]. split; [exact B|]. split; [apply (derivative_req vo Hv S K HK); exact N|].
  intros HD H0. apply (derivative_normal vo Hv S HS K HK x p); [|exact N]. intros n c Hn Hc E. apply (domain_integral K HD) in E as [E|E]; [apply (H0 n Hn E)|contradiction].
Qed.
Print Assumptions C24_derivative_partial.
(** d(p*q) = dp*q + p*dq for the library's own operations (integers and rationals). *)
Theorem C24_leibniz : forall vo S C (K : coefs C), lib_poly vo S -> domain_ok K -> char0 K ->
  forall x p q, normal (mok vo) (m_gt S) K p -> normal (mok vo) (m_gt S) K q ->
  exists pq a b, p_mul S K no_compress p q = Ok pq /\ p_mul S K no_compress (p_derivative K x p) q = Ok a /\
    p_mul S K no_compress p (p_derivative K x q) = Ok b /\ p_derivative K x pq = p_add S K a b.
Proof.
  intros vo S C K HP HD H0 x p q Np Nq. pose proof (domain_ring K HD) as HK. pose proof (lib_poly_monos vo S HP) as HM.
  destruct (C24_derivative_partial vo S C K HP HK x p Np) as (_ & _ & Rp & Dp). specialize (Dp HD H0).
  destruct (C24_derivative_partial vo S C K HP HK x q Nq) as (_ & _ & Rq & Dq). specialize (Dq HD H0).
  destruct (C12_multiplication _ S _ _ C K HM HD p q Np Nq) as (pq & E1 & N1 & R1).
  destruct (C12_multiplication _ S _ _ C K HM HD _ q Dp Nq) as (a & E2 & N2 & R2).
  destruct (C12_multiplication _ S _ _ C K HM HD p _ Np Dq) as (b & E3 & N3 & R3).
  exists pq, a, b. split; [exact E1|]. split; [exact E2|]. split; [exact E3|].
  destruct (C24_derivative_partial vo S C K HP HK x pq N1) as (_ & _ & R4 & D4). specialize (D4 HD H0).
  destruct (C09_add _ S _ _ C K HM HK a b N2 N3) as [N5 R5]. apply lib_monos_ok in HM.
  apply (gnormal_req S (mok vo) sm K HM HK); [exact D4|exact N5|]. rewrite R4, R1. intros m. rewrite R5.
  rewrite (rderiv_leibniz K HK x (graw sm p) (graw sm q) m). unfold radd. rewrite (coef_app K HK).
  rewrite (R2 m), (R3 m). f_equal.
  - apply (rmul_proper K HK); [symmetry; exact Rp|reflexivity].
  - apply (rmul_proper K HK); [reflexivity|symmetry; exact Rq].
Qed.
Print Assumptions C24_leibniz.
Theorem C24_derivative_lex : forall vo C (K : coefs C), lib_vorder vo -> ring_ok K -> forall p, normal (mok vo) (lex_gt vo) K p ->
  p_derivative_lex K p = p_derivative K (first_var p) p.
Proof. intros vo C K Hv HK p N. apply lib_vorder_ok in Hv. apply (derivative_lex_eq vo Hv K p N). Qed.
Print Assumptions C24_derivative_lex.
(** Univariate derivatives drop zero coefficients, so they are in normal form over every ring. *)
Theorem C24_univariate : forall C (K : coefs C), ring_ok K -> forall p, normal uok (m_gt uniS) K p ->
  normal uok (m_gt uniS) K (u_derivative K p) /\ req K (graw usm (u_derivative K p)) (rderiv K 0%N (graw usm p)).
Proof. intros C K HK p N. apply (u_derivative_spec K HK p N). Qed.
Print Assumptions C24_univariate.
Lemma Zc_char0 : char0 Zc.
Proof. intros n Hn. assert (X : forall k, cnat Zc k = Z.of_nat k) by (induction k; cbn [cnat]; [reflexivity|rewrite IHk; cbn [Zc cadd c1]; lia]). rewrite X. cbn. lia. Qed.
Lemma QQc_char0 : char0 QQc.
Proof.
  intros n Hn. assert (X : forall k, (qcval (cnat QQc k) == inject_Z (Z.of_nat k))%Q).
  { induction k as [|k IH]; [reflexivity|]. cbn [cnat]. change (cadd QQc) with qqc_add. rewrite qcval_add, IH, Nat2Z.inj_succ, <- Z.add_1_l, inject_Z_plus. reflexivity. }
  intros E. specialize (X n). rewrite E in X. unfold Qeq in X. cbn in X. lia.
Qed.
(** Multivariate derivatives over Z/p keep zero coefficients: d(x^3)/dx over Z/3 is the one-term vector 0*x^2. *)
Lemma mod3 : modulus 3. Proof. unfold modulus. lia. Qed.
Theorem C24_normal_refuted :
  let p := [(re_deg [(1%N, 3)], c1 (Zpc 3 mod3))] in
  normal (mok vless) (m_gt (lexS vless)) (Zpc 3 mod3) p /\ ~ normal (mok vless) (m_gt (lexS vless)) (Zpc 3 mod3) (p_derivative (Zpc 3 mod3) 1%N p).
Proof.
  split.
  - split; [repeat constructor|]. split; [repeat constructor|]. constructor; [|constructor]. intros E. apply (f_equal (@proj1_sig _ _)) in E. vm_compute in E. discriminate.
  - intros (_ & _ & H). unfold nonzero in H. rewrite Forall_forall in H. eapply H; [left; reflexivity|]. apply zpc_eq. vm_compute. reflexivity.
Qed.
Print Assumptions C24_normal_refuted.
Example C24_example : p_derivative Zc 1%N ex_xz_y2_z = [(re_deg [(3%N, 1)], 1)] /\ p_derivative Zc 2%N ex_xz_y2_z = [(re_deg [(2%N, 1)], 2)]
  /\ u_derivative Zc [(3, 2); (1, 5); (0, 7)] = [(2, 6); (0, 5)].
Proof. repeat split. Qed.

(** ** C25: degrees and coefficients *)
Theorem C25_degree : forall vo S C (K : coefs C), lib_poly vo S -> ring_ok K ->
  forall p v, normal (mok vo) (m_gt S) K p ->
  0 <= p_degree p v /\ deg_is K (graw sm p) v (Z.to_N (p_degree p v)).
Proof. intros vo S C K [Hv HS] HK p v N. apply lib_vorder_ok in Hv. apply (p_degree_spec vo Hv S HS K HK p v N). Qed.
Print Assumptions C25_degree.
Theorem C25_degree_lex : forall vo C (K : coefs C), lib_vorder vo -> ring_ok K ->
  forall p v, normal (mok vo) (lex_gt vo) K p -> p_degree_lex vo p v = p_degree p v.
Proof. intros vo C K Hv HK p v N. apply lib_vorder_ok in Hv. apply (p_degree_lex_spec vo Hv K p v N). Qed.
Print Assumptions C25_degree_lex.
Theorem C25_leadcoeff : forall vo S C (K : coefs C), lib_poly vo S -> ring_ok K ->
  forall srt F v, sort_ok (mok vo) (m_gt S) srt -> normal (mok vo) (m_gt S) K F ->
  let '(l, d) := leadcoeff_v K vo (m_gt S) srt F v in
  deg_is K (graw sm F) v (Z.to_N d) /\ normal (mok vo) (m_gt S) K l /\ req K (graw sm l) (rcoeff K v (Z.to_N d) (graw sm F)).
Proof.
  intros vo S C K [Hv HS] HK srt F v Hs N. apply lib_vorder_ok in Hv. pose proof (leadcoeff_v_spec vo Hv S HS K HK srt F v N Hs) as X.
  destruct (leadcoeff_v K vo (m_gt S) srt F v) as [l d]. destruct X as (-> & A & B). split; [apply (p_degree_spec vo Hv S HS K HK F v N)|]. split; assumption.
Qed.
Print Assumptions C25_leadcoeff.
(** coeff(F,v): the list of the coefficients of 1, v, ..., v^deg; F is their sum against the powers of v. *)
Theorem C25_coefficients : forall vo S C (K : coefs C), lib_poly vo S -> ring_ok K ->
  forall ms1 ms2 s1 s2 F v, msort_ok (vuniv v) ms1 -> msort_ok vo ms2 ->
  sort_ok (mok (vuniv v)) (lex_gt (vuniv v)) s1 -> sort_ok (mok vo) (m_gt S) s2 ->
  normal (mok vo) (m_gt S) K F ->
  exists cs, p_coeff K vo (m_gt S) ms1 ms2 s1 s2 F v = Ok cs /\ deg_is K (graw sm F) v (N.of_nat (length cs - 1)) /\ (0 < length cs)%nat /\
   (forall j, (j < length cs)%nat -> normal (mok vo) (m_gt S) K (nth j cs []) /\
      forall m, coef K (graw sm (nth j cs [])) m = if N.eqb (exp m v) 0 then coef K (graw sm F) ((v, N.of_nat j) :: mdrop v m) else c0 K) /\
   req K (graw sm F) (rbig (length cs) (fun d => rmul K (graw sm (nth (N.to_nat d) cs [])) [([(v, d)], c1 K)])).
Proof.
  intros vo S C K [Hv HS] HK ms1 ms2 s1 s2 F v H1 H2 H3 H4 N. apply lib_vorder_ok in Hv. assert (Hu : vorder_ok (vuniv v)) by (apply lib_vorder_ok; constructor).
  destruct (p_coeff_spec vo Hv S HS K HK v Hu ms1 ms2 s1 s2 H1 H2 H3 H4 F N) as (cs & E & L & X).
  destruct (p_degree_spec vo Hv S HS K HK F v N) as [D0 D1].
  exists cs. split; [exact E|]. split; [replace (N.of_nat (length cs - 1)) with (Z.to_N (p_degree F v)) by lia; exact D1|]. split; [lia|]. split.
  - intros j Hj. destruct (X j Hj) as [A B]. split; [exact A|]. intros m. rewrite (B m). apply (coef_rcoeff K HK).
  - transitivity (rbig (length cs) (fun d => rmul K (rcoeff K v d (graw sm F)) (rmono K [(v, d)]))).
    + apply (rcoeff_sum K HK). intros m Hm. destruct D1 as [D1 _]. specialize (D1 m Hm). lia.
    + assert (G : forall n, (n <= length cs)%nat -> req K (rbig n (fun d => rmul K (rcoeff K v d (graw sm F)) (rmono K [(v, d)])))
         (rbig n (fun d => rmul K (graw sm (nth (N.to_nat d) cs [])) [([(v, d)], c1 K)]))).
      { induction n as [|n IH]; intros Hn; [reflexivity|]. cbn [rbig]. apply (radd_proper K HK); [apply IH; lia|]. apply (rmul_proper K HK); [|reflexivity].
        rewrite Nat2N.id. symmetry. apply X. lia. }
      apply G. lia.
Qed.
Print Assumptions C25_coefficients.
(** get_variables: sorted, and exactly the occurring variables with their degrees. *)
Theorem C25_get_variables : forall vo S C (K : coefs C), lib_poly vo S -> ring_ok K ->
  forall p, normal (mok vo) (m_gt S) K p ->
  NoDup (map fst (get_variables vo p)) /\
  forall v d, In (v, d) (get_variables vo p) <-> 0 < d /\ d = p_degree p v.
Proof.
  intros vo S C K [Hv HS] HK p N. apply lib_vorder_ok in Hv. destruct (get_variables_spec vo Hv S K p N) as [D X]. split; [apply (dok_nodup vo Hv), D|].
  intros v d. rewrite <- (X v). split.
  - intros Hin. rewrite (ex_in vo Hv _ v d D Hin). split; [|reflexivity]. destruct D as [_ P]. rewrite Forall_forall in P. apply (P _ Hin).
  - intros [P ->]. pose proof P as P'. apply (ex_pos_in vo Hv _ v D) in P'. apply in_map_iff in P' as ([w e] & Ew & Hin). cbn [fst] in Ew. subst w.
    rewrite (ex_in vo Hv _ v e D Hin). exact Hin.
Qed.
Print Assumptions C25_get_variables.
(** The one-argument leadcoeff of a lex polynomial (ZZ): correct when the first monomial is not constant ... *)
Theorem C25_leadcoeff_lex_partial : forall vo C (K : coefs C), lib_vorder vo -> ring_ok K ->
  forall F, normal (mok vo) (lex_gt vo) K F -> is_number F = false ->
  normal (mok vo) (lex_gt vo) K (leadcoeff_lex F) /\
  req K (graw sm (leadcoeff_lex F)) (rcoeff K (first_var F) (Z.to_N (p_degree F (first_var F))) (graw sm F)).
Proof.
  intros vo C K Hv HK F N EN. apply lib_vorder_ok in Hv. destruct F as [|t r]; [discriminate|].
  assert (Em : md (fst t) <> []).
  { intros E. destruct (first_const vo K r t N E) as [Et ->]. cbn in EN. unfold mempty in EN. rewrite E in EN. discriminate. }
  pose proof (first_top vo Hv K r t N Em) as T. set (x := first_var (t :: r)) in *.
  destruct (norm_in (lexS vo) (mok vo) K _ t N (or_introl eq_refl)) as [O _]. pose proof (Forall_inv T) as Tt. cbv beta in Tt.
  assert (X : first_deg (t :: r) = p_degree (t :: r) x /\ 0 < p_degree (t :: r) x).
  { rewrite (top_deg vo Hv K x r t N Tt). unfold x. cbn [first_deg first_var]. unfold mfirst_deg, mfirst_var.
    destruct (md (fst t)) as [|[w e] l] eqn:E; [congruence|]. unfold zexp. rewrite E. apply mok_dok in O. rewrite E in O.
    rewrite (ex_in vo Hv _ w e O (or_introl eq_refl)). split; [reflexivity|]. destruct O as [_ P]. apply Forall_inv in P. exact P. }
  destruct X as [E P]. unfold leadcoeff_lex. fold x. rewrite E. rewrite (lead_lex_cls vo Hv K x (p_degree (t :: r) x) (t :: r) P N T (deg_all vo Hv K x _ N)).
  apply (cls_spec vo Hv (lexS vo) (or_introl eq_refl) K HK x (p_degree (t :: r) x) (t :: r) N). lia.
Qed.
Print Assumptions C25_leadcoeff_lex_partial.
(** ... but 0 for a nonzero constant. *)
Theorem C25_leadcoeff_lex_constant_refuted : leadcoeff_lex [(mono1, 5)] = [] /\ normal (mok vless) (lex_gt vless) Zc [(mono1, 5)].
Proof. split; [reflexivity|]. repeat constructor; discriminate. Qed.
Print Assumptions C25_leadcoeff_lex_constant_refuted.
Example C25_example : p_degree ex_xz_y2_z 2%N = 2 /\ get_variables vless ex_xz_y2_z = [(1%N, 1); (2%N, 2); (3%N, 1)] /\
  p_coeff Zc vless (grlex_gt vless) (isort (vuniv 3%N)) (isort vless) (isort (lex_gt (vuniv 3%N))) (isort (grlex_gt vless)) ex_xz_y2_z 3%N
   = Ok [[(re_deg [(2%N, 2)], 1)]; [(re_deg [(1%N, 1)], 1); (mono1, -1)]].
Proof. repeat split. Qed.

(** ** C26: conversions *)
Theorem C26_convert : forall vo1 S1 vo2 S2 C1 C2 (K1 : coefs C1) (K2 : coefs C2), lib_poly vo1 S1 -> lib_poly vo2 S2 -> ring_ok K1 -> ring_ok K2 ->
  forall phi ms srt p, phi (c0 K1) = c0 K2 -> msort_ok vo2 ms -> sort_ok (mok vo2) (m_gt S2) srt -> normal (mok vo1) (m_gt S1) K1 p ->
  normal (mok vo2) (m_gt S2) K2 (p_convert K2 vo2 (m_gt S2) ms srt phi p) /\
  forall m, coef K2 (graw sm (p_convert K2 vo2 (m_gt S2) ms srt phi p)) m = phi (coef K1 (graw sm p) m).
Proof.
  intros vo1 S1 vo2 S2 C1 C2 K1 K2 [Hv1 HS1] [Hv2 HS2] HK1 HK2 phi ms srt p P0 Hm Hs N. apply lib_vorder_ok in Hv1, Hv2.
  apply (convert_spec vo1 vo2 Hv1 Hv2 S1 S2 HS1 HS2 K1 K2 HK1 HK2 phi P0 ms Hm srt Hs p N).
Qed.
Print Assumptions C26_convert.
(** Converting to another order and back restores the polynomial. *)
Theorem C26_roundtrip : forall vo1 S1 vo2 S2 C (K : coefs C), lib_poly vo1 S1 -> lib_poly vo2 S2 -> ring_ok K ->
  forall ms1 s1 ms2 s2 p, msort_ok vo1 ms1 -> sort_ok (mok vo1) (m_gt S1) s1 -> msort_ok vo2 ms2 -> sort_ok (mok vo2) (m_gt S2) s2 ->
  normal (mok vo1) (m_gt S1) K p ->
  p_convert K vo1 (m_gt S1) ms1 s1 (fun c => c) (p_convert K vo2 (m_gt S2) ms2 s2 (fun c => c) p) = p.
Proof.
  intros vo1 S1 vo2 S2 C K H1 H2 HK ms1 s1 ms2 s2 p A B D E N.
  destruct (C26_convert vo1 S1 vo2 S2 C C K K H1 H2 HK HK (fun c => c) ms2 s2 p eq_refl D E N) as [N2 R2].
  destruct (C26_convert vo2 S2 vo1 S1 C C K K H2 H1 HK HK (fun c => c) ms1 s1 _ eq_refl A B N2) as [N1 R1].
  pose proof (lib_poly_monos vo1 S1 H1) as HM. apply lib_monos_ok in HM.
  apply (gnormal_req S1 (mok vo1) sm K HM HK _ _ N1 N). intros m. rewrite R1, R2. reflexivity.
Qed.
Print Assumptions C26_roundtrip.
Theorem C26_mod : forall M (S : monos M) ok sm C1 C2 (K1 : coefs C1) (K2 : coefs C2), lib_monos S ok sm -> ring_ok K1 -> ring_ok K2 ->
  forall phi p, phi (c0 K1) = c0 K2 -> normal ok (m_gt S) K1 p ->
  normal ok (m_gt S) K2 (p_mod K2 phi p) /\ forall m, coef K2 (graw sm (p_mod K2 phi p)) m = phi (coef K1 (graw sm p) m).
Proof.
  intros M S ok sm C1 C2 K1 K2 HS HK1 HK2 phi p P0 N. apply lib_monos_ok in HS. apply (mod_spec S ok sm HS K1 K2 HK1 HK2 phi P0 p N).
Qed.
Print Assumptions C26_mod.
Theorem C26_univariate_roundtrip : forall vo S C (K : coefs C), lib_poly vo S -> ring_ok K -> forall v usrt,
  (forall p, normal uok (m_gt uniS) K p -> normal (mok vo) (m_gt S) K (of_upoly v p) /\ to_upoly K usrt (of_upoly v p) = p /\
     forall e, coef K (graw usm p) [(0%N, e)] = coef K (graw sm (of_upoly v p)) [(v, e)]) /\
  (forall p, normal (mok vo) (m_gt S) K p -> (forall w, w <> v -> p_degree p w = 0) ->
     normal uok (m_gt uniS) K (to_upoly K usrt p) /\ of_upoly v (to_upoly K usrt p) = p).
Proof.
  intros vo S C K [Hv HS] HK v usrt. apply lib_vorder_ok in Hv. split.
  - intros p N. destruct (of_upoly_spec K vo Hv S HS v p N) as [A B]. split; [exact A|]. split; [apply (to_of_upoly K HK v usrt p N)|exact B].
  - intros p N X. assert (Y : forall t w, In t p -> w <> v -> zexp (fst t) w = 0).
    { intros t w Hin Hw. pose proof (p_degree_max vo Hv S K p w t N Hin) as L. rewrite (X w Hw) in L.
      destruct (norm_in S (mok vo) K p t N Hin) as [O _]. pose proof (zexp_nonneg vo (fst t) w O). lia. }
    destruct (of_to_upoly K HK vo Hv S HS v usrt p N Y) as [A B]. split; assumption.
Qed.
Print Assumptions C26_univariate_roundtrip.
(** Rational to integer: the result is the polynomial times a common denominator. *)
Theorem C26_rational_to_integer : forall vo1 S1 vo2 S2, lib_poly vo1 S1 -> lib_poly vo2 S2 ->
  forall ms srt p, msort_ok vo2 ms -> sort_ok (mok vo2) (m_gt S2) srt -> normal (mok vo1) (m_gt S1) QQc p ->
  let r := p_convert_qq vo2 (m_gt S2) ms srt p in
  exists den, 0 < den /\ normal (mok vo2) (m_gt S2) Zc r /\
  forall m, (inject_Z (coef Zc (graw sm r) m) == inject_Z den * qcval (coef QQc (graw sm p) m))%Q.
Proof.
  intros vo1 S1 vo2 S2 [Hv1 HS1] [Hv2 HS2] ms srt p Hm Hs N. apply lib_vorder_ok in Hv1, Hv2.
  apply (convert_qq_spec vo1 vo2 Hv1 Hv2 S1 S2 HS1 HS2 ms Hm srt Hs p N).
Qed.
Print Assumptions C26_rational_to_integer.
Example C26_example : p_convert Zc (vuniv 3%N) (lex_gt (vuniv 3%N)) (isort (vuniv 3%N)) (isort (lex_gt (vuniv 3%N))) (fun c => c) ex_xz_y2_z
  = [(re_deg [(3%N, 1); (1%N, 1)], 1); (re_deg [(3%N, 1)], -1); (re_deg [(2%N, 2)], 1)] /\
  p_mod Zc (fun c => c mod 2) ex_p = [(mono_var 1, 1)].
Proof. split; reflexivity. Qed.
