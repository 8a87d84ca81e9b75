(** * C41: factorization of polynomials.

    [factorize] and [factor_uni] (Factor.v) model factorize for polynomial_<ZZ,lex> and upolynomial_<ZZ>.  What
    the modular factorization, the liftings, LLL and Wang's evaluation and leading coefficients produce is an
    arbitrary oracle [o], [w_try]: whatever they answer, the theorems hold ([fac_env] and [wang_env] only say
    that they answer with well-formed polynomials and that the sorts permute).  As in Props_Gcd, [gcd_env] says
    that the sorts sort and the packed shortcuts of operator* and of the divisions are right. *)
From Coq Require Import Ring_theory Ring Setoid Morphisms Znumtheory Permutation.
From Verif Require Import Prelude Coef Spec SpecProofs SpecOps SpecOpsProofs GcdDom GcdPoly GcdMath SqfMath OrderSpec PairVec PairVecProofs
  Mono MonoProofs MonoStruct MonoStructProofs Heap Poly PolyMulProofs Div PolyDivProofs PolyOps MonoOpsProofs PolyOpsGen PolyOpsProofs
  PolyOps2Proofs ConvertProofs PolyOps3Proofs Groebner Zp QQ NumSpec ZpProofs QQProofs ConvertQQ Gcd GcdHom GcdLex GcdZpProofs GcdCont GcdRep GcdTerm GcdProofs GcdMain Sqf SqfProofs
  UGcd UGcdBase UGcdProofs Factor FactorBase FactorUni FactorSqf FactorRen FactorOne FactorMulti FactorWang FactorQQ GroebnerSpec
  Library LibraryProofs SortProofs Props_Poly Props_Div Props_Ops Props_Gcd.
Local Open Scope Z_scope.

(** ** Specification *)
(** a content and factors with multiplicities, multiplied out (Props_Gcd.product is the product of the powers) *)
Definition expand (ct : Z) (fs : list (poly Z * nat)) : rpoly Z := rmul Zc (rconst ct) (product fs).
(** two different variables occur in p *)
Definition several_variables {C} (K : coefs C) (p : rpoly C) : Prop := exists v w, v <> w /\ ~ vfree K v p /\ ~ vfree K w p.
Definition leading_positive {M} (p : list (M * Z)) : Prop := match p with [] => False | t :: _ => 0 < snd t end.
Definition squarefree_rational (p : rpoly qqc) : Prop := forall h, rdivides QQc (rmul QQc h h) p -> exists k, req QQc h (rconst k).
(** univariate polynomials: the variable is written 0 *)
Fixpoint uproduct (l : list (upz * nat)) : rpoly Z :=
  match l with [] => rconst 1 | (q, e) :: l => rmul Zc (rpow Zc (graw usm q) e) (uproduct l) end.

Local Instance HKz : ring_ok Zc := domain_ring Zc Zc_domain.
Add Ring Rring : (rring Zc HKz) (setoid (req_equiv Zc) (rring_ext Zc HKz)).
Lemma product_mprod l : product l == mprod sm l.
Proof. rewrite product_rprod, mprod_graws. reflexivity. Qed.
Lemma uproduct_mprod l : uproduct l == mprod usm l.
Proof. induction l as [|[q e] l IH]; cbn [uproduct mprod fold_right fst snd]; [reflexivity|]. fold (mprod usm l). rewrite IH. reflexivity. Qed.
Lemma lcp_pos (p : poly Z) : 0 < lcp p -> leading_positive p.
Proof. destruct p; cbn; [apply Z.lt_irrefl|auto]. Qed.
Lemma zprod_product l : zprod l = product l. Proof. induction l as [|[q e] l IH]; cbn [zprod product]; [reflexivity|rewrite IH; reflexivity]. Qed.

Section Statements.
Context (vo : vorder) (HL : lib_vorder vo).
Variable msrt : list (var * Z) -> list (var * Z).
Variable srt : forall C : Type, Mono.poly C -> Mono.poly C.
Variable mcomp qcomp : poly Z -> poly Z -> outcome (option (poly Z)).
Variable rcomp : poly Z -> poly Z -> outcome (option (poly Z * poly Z)).
Variable zcomp : forall p (Hp : modulus p), Mono.poly (zpc p) -> Mono.poly (zpc p) -> outcome (option (Mono.poly (zpc p) * Mono.poly (zpc p))).
Variable ps : nat -> pmod.
Variable rnd : path -> nat -> Z.
Context (Env : gcd_env vo msrt srt mcomp qcomp rcomp zcomp ps).
Variable usrt : upz -> upz.
Variable usort : list upz -> list upz.
Variable fsort : list (upz * nat) -> list (upz * nat).
Variable msortf : list (poly Z * nat) -> list (poly Z * nat).
Variable o : foracle.
Variable w_try : poly Z -> var -> nat -> attempt.
Context (Fenv : fac_env usort fsort o) (Wenv : wang_env vo msortf w_try).
Notation factor_uni := (factor_uni vo msrt srt mcomp qcomp rcomp zcomp ps rnd usrt usort fsort o).
Notation factorize := (factorize vo msrt srt mcomp qcomp rcomp zcomp ps rnd usrt usort fsort msortf o w_try).
Let Hvo : vorder_ok vo := lib_vorder_ok vo HL.

Lemma several_length F : npoly vo F -> vfree Zc 0%N (graw sm F) -> several_variables Zc (graw sm F) -> (1 < length (get_variables vo F))%nat.
Proof.
  intros N V (v & w & Nvw & Hv & Hw). destruct (Nat.le_gt_cases (length (get_variables vo F)) 1) as [L|L]; [exfalso|exact L].
  pose proof (good_of vo F Hvo N V) as G.
  destruct (is_number F) eqn:En.
  - destruct F as [|t F]; [apply Hv; intros m Hm; exfalso; apply Hm; reflexivity|].
    destruct (number_spec vo Hvo _ G En ltac:(discriminate)) as (c & Ec & _). apply Hv. intros m Hm.
    assert (X : coef Zc (rconst c) m <> c0 Zc) by (rewrite <- (Ec m); exact Hm). unfold rconst in X; cbn [coef fst snd] in X.
    destruct (meqb_spec [] m) as [Em|Em]; [|exfalso; apply X; reflexivity]. symmetry. apply Em.
  - destruct (one_var vo Hvo F G En L) as (x & d & _ & Vx & _). unfold vars_P in Vx. rewrite Forall_forall in Vx.
    destruct (N.eq_dec v x) as [->|Nv]; [apply Hw|apply Hv];
      apply (vfree_zexp vo Hvo Zc Zc_domain _ _ N); apply Forall_forall; intros t Ht;
      [destruct (Z.eq_dec (zexp (fst t) w) 0) as [E|E]; [exact E|exfalso; apply Nvw; exact (Vx t Ht w E)]
      |destruct (Z.eq_dec (zexp (fst t) v) 0) as [E|E]; [exact E|exfalso; apply Nv; symmetry; exact (Vx t Ht v E)]].
Qed.

(** For every polynomial the result multiplies out to F or to -F; the factors are well formed, not zero, and have
    positive multiplicities.  Partial: C41 says F (and [C41_refuted] shows that -F does occur). *)
Theorem C41_up_to_sign_partial : forall fuel pa F ct fs, npoly vo F -> vfree Zc 0%N (graw sm F) -> factorize fuel pa F = Ok (ct, fs) ->
  (expand ct fs == graw sm F \/ expand ct fs == ropp Zc (graw sm F)) /\
  Forall (fun t => npoly vo (fst t) /\ fst t <> [] /\ (1 <= snd t)%nat) fs.
Proof.
  intros fuel pa F ct fs N V E.
  destruct (factorize_ok vo Hvo _ _ _ _ _ _ _ rnd Env usrt _ _ _ _ _ Fenv Wenv fuel pa F ct fs (good_of vo F Hvo N V) E) as (A & B & _).
  split; [|eapply Forall_impl; [|exact A]; intros t (X & Y & W); split; [apply X|split; assumption]].
  unfold expand. unfold pm in B. rewrite <- !product_mprod in B. exact B.
Qed.
(** If two variables occur in F, the result multiplies out to F, and every factor has a positive leading coefficient. *)
Theorem C41_several_variables : forall fuel pa F ct fs, npoly vo F -> vfree Zc 0%N (graw sm F) -> several_variables Zc (graw sm F) ->
  factorize fuel pa F = Ok (ct, fs) -> expand ct fs == graw sm F /\ Forall (fun t => leading_positive (fst t)) fs.
Proof.
  intros fuel pa F ct fs N V W E. pose proof (several_length F N V W) as L. pose proof (good_of vo F Hvo N V) as G.
  unfold Factor.factorize in E. destruct (Nat.ltb_spec 1 (length (get_variables vo F))) as [_|X]; [|exfalso; apply (Nat.lt_irrefl 1); eapply Nat.lt_le_trans; eassumption].
  assert (Ne : F <> []) by (intros X; rewrite X in L; inversion L).
  destruct (factor_multivar_ok vo Hvo _ _ _ _ _ _ _ rnd Env usrt _ _ _ _ _ Fenv Wenv fuel pa F ct fs G Ne E) as [A B].
  split; [unfold expand; rewrite product_mprod; exact B|]. eapply Forall_impl; [|exact A]. intros t [_ H]. apply lcp_pos, H.
Qed.
(** If every square factor of F is a constant, the result multiplies out to F. *)
Theorem C41_squarefree : forall fuel pa F ct fs, npoly vo F -> vfree Zc 0%N (graw sm F) -> squarefree_nonconstant (graw sm F) ->
  factorize fuel pa F = Ok (ct, fs) -> expand ct fs == graw sm F.
Proof.
  intros fuel pa F ct fs N V W E.
  destruct (factorize_ok vo Hvo _ _ _ _ _ _ _ rnd Env usrt _ _ _ _ _ Fenv Wenv fuel pa F ct fs (good_of vo F Hvo N V) E) as (_ & _ & C).
  unfold expand. rewrite product_mprod. apply C. left. exact W.
Qed.
(** factorize for upolynomial_<ZZ>: the same two statements. *)
Theorem C41_univariate_partial : forall fuel pa v F ct fs, v <> 0%N -> normal uok (m_gt uniS) Zc F -> factor_uni fuel pa v F = Ok (ct, fs) ->
  (rmul Zc (rconst ct) (uproduct fs) == graw usm F \/ rmul Zc (rconst ct) (uproduct fs) == ropp Zc (graw usm F)) /\
  (squarefree_nonconstant (graw usm F) -> rmul Zc (rconst ct) (uproduct fs) == graw usm F) /\
  Forall (fun t => normal uok (m_gt uniS) Zc (fst t) /\ fst t <> [] /\ (1 <= snd t)%nat) fs.
Proof.
  intros fuel pa v F ct fs Nv N E.
  destruct (factor_uni_ok vo Hvo _ _ _ _ _ _ _ _ Env usrt usort fsort o Fenv fuel pa v F ct fs Nv N E) as (A & B & C).
  unfold pm, exactly in B, C. rewrite <- !uproduct_mprod in B, C. split; [exact B|]. split; [exact C|].
  eapply Forall_impl; [|exact A]. intros t [[X Y] W]. split; [exact X|split; assumption].
Qed.
End Statements.
Print Assumptions C41_up_to_sign_partial.
Print Assumptions C41_several_variables.
Print Assumptions C41_squarefree.
Print Assumptions C41_univariate_partial.

Lemma sqf_rational (P : poly Z) (F : poly qqc) den : den <> 0 -> req QQc (qpoly (graw sm P)) (rmul QQc (rconst (qqc_int den)) (graw sm F)) ->
  squarefree_rational (graw sm F) -> squarefree_nonconstant (graw sm P).
Proof.
  intros Nd EP W h [q Eq]. assert (HF := field_domain _ QQc_field). assert (HQ := domain_ring _ HF).
  assert (Nd' : qqc_int den <> c0 QQc) by (intros X; apply (GroebnerZZProofs.qint_inj den 0) in X; contradiction).
  destruct (W (qpoly h)) as [k Ek].
  { exists (rmul QQc (rconst (cquo QQc (c1 QQc) (qqc_int den))) (qpoly q)). apply GroebnerZZProofs.req_qpoly in Eq. rewrite !GroebnerZZProofs.rmul_qpoly in Eq.
    apply (inv_scale (qqc_int den) _ _ Nd'). etransitivity; [symmetry; exact EP|]. etransitivity; [exact Eq|]. apply inv_back, Nd'. }
  exists (coef Zc h []). intros s. apply GroebnerZZProofs.qint_inj. rewrite <- !GroebnerZZProofs.coef_qpoly. rewrite (Ek s).
  change (qpoly (rconst (coef Zc h []))) with (rconst (qqc_int (coef Zc h []))). rewrite <- GroebnerZZProofs.coef_qpoly, (Ek []).
  unfold rconst. cbn [coef fst snd]. destruct (meqb_spec [] s) as [E|E]; [|reflexivity]. destruct (meqb_spec [] []) as [_|X]; [|exfalso; apply X; reflexivity].
  cbn [cadd QQc c0]. apply qcval_inj. rewrite !qcval_add, !qcval_int. change (QArith_base.inject_Z 0) with (QArith_base.Qmake 0 1). rewrite !QArith_base.Qplus_0_r. reflexivity.
Qed.
(** ** Other monomial orders, and rational polynomials *)
Section Others.
Context (vo2 : vorder) (S2 : monos mono) (HP : lib_poly vo2 S2).
Variable msrt : list (var * Z) -> list (var * Z).
Variable srt : forall C : Type, Mono.poly C -> Mono.poly C.
Variable mcomp qcomp : poly Z -> poly Z -> outcome (option (poly Z)).
Variable rcomp : poly Z -> poly Z -> outcome (option (poly Z * poly Z)).
Variable zcomp : forall p (Hp : modulus p), Mono.poly (zpc p) -> Mono.poly (zpc p) -> outcome (option (Mono.poly (zpc p) * Mono.poly (zpc p))).
Variable ps : nat -> pmod.
Variable rnd : path -> nat -> Z.
Variable msrt2 : list (var * Z) -> list (var * Z).
Variable srt2 : poly Z -> poly Z.
Context (Env : gcd_env vless msrt srt mcomp qcomp rcomp zcomp ps).
Context (Hm2 : msort_ok vo2 msrt2) (Hs2 : sort_ok (mok vo2) (m_gt S2) srt2).
Variable usrt : upz -> upz.
Variable usort : list upz -> list upz.
Variable fsort : list (upz * nat) -> list (upz * nat).
Variable msortf : list (poly Z * nat) -> list (poly Z * nat).
Variable o : foracle.
Variable w_try : poly Z -> var -> nat -> attempt.
Context (Fenv : fac_env usort fsort o) (Wenv : wang_env vless msortf w_try).
Notation npoly2 := (normal (mok vo2) (m_gt S2) Zc).
Notation npolyq := (normal (mok vo2) (m_gt S2) QQc).
Notation factorize fuel pa := (factorize_any vo2 (m_gt S2) msrt srt msrt2 srt2 (factorize vless msrt srt mcomp qcomp rcomp zcomp ps rnd usrt usort fsort msortf o w_try fuel pa)).
Notation factorize_rational fuel pa := (factorize_qq vo2 (m_gt S2) msrt2 srt2 (factorize fuel pa)).

Lemma any_inv fuel pa F ct fs : npoly2 F -> vfree Zc 0%N (graw sm F) -> factorize fuel pa F = Ok (ct, fs) -> exists fs',
  Factor.factorize vless msrt srt mcomp qcomp rcomp zcomp ps rnd usrt usort fsort msortf o w_try fuel pa (to_lex msrt srt F) = Ok (ct, fs') /\
  expand ct fs == expand ct fs' /\ Forall (fun t => npoly2 (fst t) /\ (1 <= snd t)%nat) fs /\ map snd fs = map snd fs'.
Proof.
  intros N V E. unfold factorize_any in E. destruct (Factor.factorize _ _ _ _ _ _ _ _ _ _ _ _ _ _ _ _ _ _) as [[c1 f1]| | |] eqn:E1; cbn [obind] in E; try discriminate. injection E as <- <-.
  exists f1. split; [reflexivity|]. destruct (to_lex_ok vo2 S2 HP _ _ _ _ _ _ _ Env F N V) as (A1 & A2 & _).
  destruct (C41_up_to_sign_partial vless lv_less _ _ _ _ _ _ _ rnd Env usrt _ _ _ _ _ Fenv Wenv fuel pa _ c1 f1 A1 A2 E1) as [_ Ff].
  assert (G : product (map (fun t => (from_lex vo2 (m_gt S2) msrt2 srt2 (fst t), snd t)) f1) == product f1 /\
    Forall (fun t => npoly2 (fst t) /\ (1 <= snd t)%nat) (map (fun t => (from_lex vo2 (m_gt S2) msrt2 srt2 (fst t), snd t)) f1) /\
    map snd (map (fun t => (from_lex vo2 (m_gt S2) msrt2 srt2 (fst t), snd t)) f1) = map snd f1).
  { clear - Ff HP Hm2 Hs2. induction Ff as [|[q e] l (Nq & _ & Le) Ff (IH1 & IH2 & IH3)]; [split; [reflexivity|split; constructor]|]. cbn [map fst snd product] in *.
    destruct (from_lex_ok vo2 S2 HP msrt2 srt2 Hm2 Hs2 q Nq) as [X Y]. split; [rewrite IH1, Y; reflexivity|]. split; [constructor; auto|rewrite IH3; reflexivity]. }
  destruct G as (G1 & G2 & G3). split; [unfold expand; rewrite G1; reflexivity|]. split; assumption.
Qed.
Theorem C41_other_orders_partial : forall fuel pa F ct fs, npoly2 F -> vfree Zc 0%N (graw sm F) -> factorize fuel pa F = Ok (ct, fs) ->
  (expand ct fs == graw sm F \/ expand ct fs == ropp Zc (graw sm F)) /\
  (several_variables Zc (graw sm F) \/ squarefree_nonconstant (graw sm F) -> expand ct fs == graw sm F) /\
  Forall (fun t => npoly2 (fst t) /\ (1 <= snd t)%nat) fs.
Proof.
  intros fuel pa F ct fs N V E. destruct (any_inv fuel pa F ct fs N V E) as (f1 & E1 & X & Ff & _).
  destruct (to_lex_ok vo2 S2 HP _ _ _ _ _ _ _ Env F N V) as (A1 & A2 & A3).
  destruct (C41_up_to_sign_partial vless lv_less _ _ _ _ _ _ _ rnd Env usrt _ _ _ _ _ Fenv Wenv fuel pa _ ct f1 A1 A2 E1) as [P _].
  split; [rewrite X, <- A3; exact P|]. split; [|exact Ff]. intros W; rewrite X, <- A3; revert W; intros [W|W].
  - apply (C41_several_variables vless lv_less _ _ _ _ _ _ _ rnd Env usrt _ _ _ _ _ Fenv Wenv fuel pa _ ct f1 A1 A2); [|exact E1].
    destruct W as (v & w & Nvw & Hv & Hw). exists v, w. split; [exact Nvw|].
    split; [intros Y; apply Hv|intros Y; apply Hw]; intros m Hm; apply Y; intros Z0; apply Hm; rewrite <- (A3 m); exact Z0.
  - apply (C41_squarefree vless lv_less _ _ _ _ _ _ _ rnd Env usrt _ _ _ _ _ Fenv Wenv fuel pa _ ct f1 A1 A2); [|exact E1].
    intros h D. apply W. apply (rdivides_proper Zc Zc_domain _ _ (reflexivity _) _ _ A3). exact D.
Qed.
(** factorize for rational polynomials: the factors are monic, the content takes their leading coefficients. *)
Theorem C41_rational_partial : forall fuel pa F c l, npolyq F -> vfree QQc 0%N (graw sm F) -> factorize_rational fuel pa F = Ok (c, l) ->
  (req QQc (rmul QQc (rconst c) (qprod l)) (graw sm F) \/ req QQc (rmul QQc (rconst c) (qprod l)) (ropp QQc (graw sm F))) /\
  (several_variables QQc (graw sm F) \/ squarefree_rational (graw sm F) -> req QQc (rmul QQc (rconst c) (qprod l)) (graw sm F)) /\
  Forall (fun t => npolyq (fst t) /\ (1 <= snd t)%nat /\ match fst t with [] => False | u :: _ => snd u = qqc_int 1 end) l.
Proof.
  intros fuel pa F c l N V E. destruct HP as [Hv HS]. apply lib_vorder_ok in Hv.
  assert (HQ := domain_ring _ (field_domain _ QQc_field)).
  (* a version of the factorization that only answers when the special variable does not occur *)
  assert (Supp : forall P den v, den <> 0 -> req QQc (qpoly (graw sm P)) (rmul QQc (rconst (qqc_int den)) (graw sm F)) ->
    (vfree Zc v (graw sm P) <-> vfree QQc v (graw sm F))).
  { intros P den v Nd EP. assert (Q : forall m, coef Zc (graw sm P) m <> 0 <-> coef QQc (graw sm F) m <> c0 QQc).
    { intros m. specialize (EP m). rewrite GroebnerZZProofs.coef_qpoly, (GroebnerZZProofs.coef_rconst_mul QQc HQ) in EP. split; intros H X; apply H.
      - rewrite X in EP. apply GroebnerZZProofs.qint_inj. rewrite EP. apply qcval_inj. cbn [cmul QQc c0]. rewrite qcval_mul, !qcval_int. unfold QArith_base.Qeq. cbn. lia.
      - rewrite X in EP. symmetry in EP. apply (domain_integral _ (field_domain _ QQc_field)) in EP as [Y|Y]; [|exact Y]. apply GroebnerZZProofs.qint_inj in Y. contradiction. }
    unfold vfree. split; intros H m Hm; apply H, Q, Hm. }
  assert (HZ0 : forall P ct fs den, npoly2 P -> den <> 0 -> req QQc (qpoly (graw sm P)) (rmul QQc (rconst (qqc_int den)) (graw sm F)) -> factorize fuel pa P = Ok (ct, fs) ->
    Forall (fun t => npoly2 (fst t) /\ (1 <= snd t)%nat) fs).
  { intros P ct fs den NP Nd EP Ef. apply (C41_other_orders_partial fuel pa P ct fs NP); [apply (Supp P den 0%N Nd EP), V|exact Ef]. }
  destruct (factorize_qq_ok vo2 Hv S2 HS msrt2 Hm2 srt2 Hs2 (factorize fuel pa) F c l N) as [A B]; [|exact E|].
  { intros P ct fs den NP Nd EP Ef. eapply Forall_impl; [|exact (HZ0 P ct fs den NP Nd EP Ef)]. intros t H. apply H. }
  destruct B as [[B ->]|(P & ct & fs & den & Nd & NP & EP & Ef & M & H)].
  { split; [left; exact B|]. split; [intros _; exact B|constructor]. }
  pose proof (proj2 (Supp P den 0%N Nd EP) V) as VP.
  destruct (C41_other_orders_partial fuel pa P ct fs NP VP Ef) as (Pm & Ex & _). unfold expand in Pm, Ex. rewrite <- zprod_product in Pm, Ex.
  assert (One : rmul Zc (rconst ct) (zprod fs) == graw sm P -> req QQc (rmul QQc (rconst c) (qprod l)) (graw sm F)).
  { intros X. rewrite (H 1); [apply rmul_1q|]. rewrite X. change (rconst 1) with (r1 Zc). ring. }
  split; [|split].
  - destruct Pm as [X|X]; [left; apply One, X|right]. rewrite (H (-1)); [apply rmul_m1q|]. rewrite X. change (rconst (-1)) with (ropp Zc (r1 Zc)). ring.
  - intros [W|W]; apply One, Ex; [left|right; exact (sqf_rational P F den Nd EP W)]. destruct W as (v & w & Nvw & Hv' & Hw). exists v, w. split; [exact Nvw|]. rewrite (Supp P den v Nd EP), (Supp P den w Nd EP). split; assumption.
  - specialize (HZ0 P ct fs den NP Nd EP Ef). clear - A M HZ0. revert l A M. induction fs as [|[f e] fs IH]; intros [|[q e'] l] A M; try discriminate; constructor.
    + destruct (Forall_inv A) as [A1 A2]. injection M as -> _. split; [exact A1|]. split; [apply (Forall_inv HZ0)|exact A2].
    + apply IH; [exact (Forall_inv_tail HZ0)|exact (Forall_inv_tail A)|injection M as _ M; exact M].
Qed.
End Others.
Print Assumptions C41_other_orders_partial.
Print Assumptions C41_rational_partial.

(** ** The exact product does not always come out: a release build returns a factorization of -F *)
Definition id_list {A} (l : list A) : list A := l.
(** the factorization modulo p finds nothing to split (as for the polynomials of degree 1 below) *)
Definition r_oracle : foracle := FOracle (fun _ => (true, 1%nat)) (fun _ => false) (fun f _ => ([], 2)) (fun _ _ _ => []).
Definition r_factorize := Factor.factorize vless (isort vless) (fun C => isort (lex_gt vless)) none2 none2 none3 none4 ex_ps ex_rnd id_list id_list id_list id_list r_oracle (fun _ _ _ => Failed).
Definition r_k := 4 * 101 * 103 - 1.
(** (x+1)^3 (kx+2) *)
Definition r_F : poly Z := of_upoly 1%N [(4, r_k); (3, 3 * r_k + 2); (2, 3 * r_k + 6); (1, r_k + 6); (0, 2)].
Lemma r_fac_env : fac_env id_list id_list r_oracle.
Proof. constructor; intros; try reflexivity. constructor. Qed.
Lemma r_wang_env : wang_env vless id_list (fun _ _ _ => Failed).
Proof. constructor; intros; try reflexivity. discriminate. Qed.
Lemma r_normal : npoly vless r_F /\ vfree Zc 0%N (graw sm r_F).
Proof.
  assert (Hl : vorder_ok vless) by (apply lib_vorder_ok; constructor).
  assert (N : npoly vless r_F) by (repeat split; repeat constructor; discriminate). split; [exact N|].
  apply (vfree_zexp vless Hl Zc Zc_domain _ 0%N N). repeat constructor.
Qed.
(** C41 in full is false: the factorization of F = (x+1)^3 (kx+2) is -1 * (kx+2) (x+1)^3 = -F.  (The squarefree
    factorization of F has the constant factor -1 with multiplicity 2; its sign is counted once.) *)
Theorem C41_refuted : ~ (forall vo msrt srt mcomp qcomp rcomp zcomp ps rnd usrt usort fsort msortf o w_try,
  lib_vorder vo -> gcd_env vo msrt srt mcomp qcomp rcomp zcomp ps -> fac_env usort fsort o -> wang_env vo msortf w_try ->
  forall fuel pa F ct fs, npoly vo F -> vfree Zc 0%N (graw sm F) ->
    factorize vo msrt srt mcomp qcomp rcomp zcomp ps rnd usrt usort fsort msortf o w_try fuel pa F = Ok (ct, fs) -> expand ct fs == graw sm F).
Proof.
  intros H. assert (E : r_factorize 20 [] r_F = Ok (-1, [(of_upoly 1%N [(1, r_k); (0, 2)], 1%nat); (of_upoly 1%N [(1, 1); (0, 1)], 3%nat)])) by (vm_compute; reflexivity).
  unfold r_factorize in E.
  specialize (H vless (isort vless) (fun C => isort (lex_gt vless)) none2 none2 none3 none4 ex_ps ex_rnd id_list id_list id_list id_list r_oracle (fun _ _ _ => Failed)
    lv_less ex_env r_fac_env r_wang_env 20%nat [] r_F _ _ (proj1 r_normal) (proj2 r_normal) E). clear E.
  specialize (H [(1%N, 4%N)]). vm_compute in H. discriminate.
Qed.
Print Assumptions C41_refuted.
(** The same with the four largest primes below 2^64 in place of 101, 103, 107 (the library draws its primes near 2^64). *)
Definition p1 := 2 ^ 64 - 59. Definition p2 := 2 ^ 64 - 83. Definition p3 := 2 ^ 64 - 95. Definition p4 := 2 ^ 64 - 179.
Definition mp1 : modulus p1. Proof. split; [discriminate|reflexivity]. Defined.
Definition mp2 : modulus p2. Proof. split; [discriminate|reflexivity]. Defined.
Definition mp3 : modulus p3. Proof. split; [discriminate|reflexivity]. Defined.
Definition mp4 : modulus p4. Proof. split; [discriminate|reflexivity]. Defined.
Definition big_ps (i : nat) : pmod := match i with O => PMod p1 mp1 | 1%nat => PMod p2 mp2 | 2%nat => PMod p3 mp3 | _ => PMod p4 mp4 end.
Definition b_k := 2 * p1 * p2 - 1.
Definition b_F : poly Z := of_upoly 1%N [(4, b_k); (3, 3 * b_k + 2); (2, 3 * b_k + 6); (1, b_k + 6); (0, 2)].
Example C41_refuted_64_bits : Factor.factorize vless (isort vless) (fun C => isort (lex_gt vless)) none2 none2 none3 none4 big_ps ex_rnd id_list id_list id_list id_list r_oracle (fun _ _ _ => Failed)
  20 [] b_F = Ok (-1, [(of_upoly 1%N [(1, b_k); (0, 2)], 1%nat); (of_upoly 1%N [(1, 1); (0, 1)], 3%nat)]).
Proof. vm_compute. reflexivity. Qed.

(** ** The hypotheses are met *)
(** x^2-1 splits modulo 101 into (x+100)(x+1); van Hoeij's candidate is the first of them *)
Definition e_oracle : foracle := FOracle (fun _ => (false, 2%nat)) (fun _ => false) (fun f _ => ([[(1, 1); (0, 100)]; [(1, 1); (0, 1)]], 101)) (fun _ _ _ => [[0%nat]]).
(** the first evaluation point fails, the second gives the factors x+y and -2x+2y *)
Definition e_try (g : poly Z) (x : var) (k : nat) : attempt :=
  match k with O => Failed | _ => Lifted [[(mono_var 1, 1); (mono_var 2, 1)]; [(mono_var 1, -2); (mono_var 2, 2)]] end.
Lemma e_fac_env : fac_env id_list id_list e_oracle.
Proof.
  constructor; intros; try reflexivity. cbn [o_lift e_oracle fst]. repeat (apply Forall_cons || apply Forall_nil); repeat split; repeat constructor; try discriminate.
Qed.
Lemma e_wang_env : wang_env vless id_list e_try.
Proof.
  constructor; intros; try reflexivity. destruct k as [|k]; cbn in H; [discriminate|]. injection H as <-.
  assert (Hl : vorder_ok vless) by (apply lib_vorder_ok; constructor).
  repeat (apply Forall_cons || apply Forall_nil); apply (good_of vless _ Hl); try (repeat split; repeat constructor; discriminate);
    apply (vfree_zexp vless Hl Zc Zc_domain _ 0%N); try (repeat split; repeat constructor; discriminate); repeat constructor.
Qed.
Definition e_factorize := Factor.factorize vless (isort vless) (fun C => isort (lex_gt vless)) none2 none2 none3 none4 ex_ps ex_rnd id_list id_list id_list id_list e_oracle e_try.
(** -2(x-1)(x+1)(x+2)^2 and -3 x y^2 (x-y)(x+y) *)
Example C41_example : e_factorize 20 [] (of_upoly 1%N [(4, -2); (3, -8); (2, -6); (1, 8); (0, 8)]) =
    Ok (-2, [(of_upoly 1%N [(1, 1); (0, -1)], 1%nat); (of_upoly 1%N [(1, 1); (0, 1)], 1%nat); (of_upoly 1%N [(1, 1); (0, 2)], 2%nat)]) /\
  e_factorize 20 [] [(re_deg [(1%N, 3); (2%N, 2)], -3); (re_deg [(1%N, 1); (2%N, 4)], 3)] =
    Ok (-3, [([(mono_var 2, 1)], 2%nat); ([(mono_var 1, 1)], 1%nat); ([(mono_var 1, 1); (mono_var 2, 1)], 1%nat); ([(mono_var 1, 1); (mono_var 2, -1)], 1%nat)]).
Proof. vm_compute. auto. Qed.
Definition e_F : poly Z := [(re_deg [(1%N, 3); (2%N, 2)], -3); (re_deg [(1%N, 1); (2%N, 4)], 3)].
Example C41_example_applies : exists ct fs, e_factorize 20 [] e_F = Ok (ct, fs) /\ length fs = 4%nat /\ expand ct fs == graw sm e_F.
Proof.
  assert (Hl : vorder_ok vless) by (apply lib_vorder_ok; constructor).
  assert (N : npoly vless e_F) by (repeat split; repeat constructor; discriminate).
  assert (V : vfree Zc 0%N (graw sm e_F)) by (apply (vfree_zexp vless Hl Zc Zc_domain _ 0%N N); repeat constructor).
  assert (W : several_variables Zc (graw sm e_F)).
  { exists 1%N, 2%N. split; [discriminate|]. split; intros X; specialize (X [(1%N, 3%N); (2%N, 2%N)]); vm_compute in X; specialize (X ltac:(discriminate)); discriminate. }
  pose proof (proj2 C41_example) as E. fold e_F in E. eexists _, _. split; [exact E|]. split; [reflexivity|].
  unfold e_factorize in E.
  apply (C41_several_variables vless lv_less _ _ _ _ _ _ _ ex_rnd ex_env id_list _ _ _ _ _ e_fac_env e_wang_env 20 [] e_F _ _ N V W E).
Qed.
(** (1/2)x^2 - (1/2) y^2 over the rationals, in lex order: content 1/2, monic factors *)
Definition e_q : poly qqc := [(re_deg [(1%N, 2)], qqc_quo (qqc_int 1) (qqc_int 2)); (re_deg [(2%N, 2)], qqc_quo (qqc_int (-1)) (qqc_int 2))].
Example C41_rational_example :
  match factorize_qq vless (lex_gt vless) (isort vless) (isort (lex_gt vless))
    (factorize_any vless (lex_gt vless) (isort vless) (fun C => isort (lex_gt vless)) (isort vless) (isort (lex_gt vless)) (e_factorize 20 [])) e_q with
  | Ok (c, l) => (proj1_sig c, map (fun t => (map (fun u => (fst u, proj1_sig (snd u))) (fst t), snd t)) l) =
      (Qq 1 2, [([(mono_var 1, Qq 1 1); (mono_var 2, Qq 1 1)], 1%nat); ([(mono_var 1, Qq 1 1); (mono_var 2, Qq (-1) 1)], 1%nat)])
  | _ => False
  end.
Proof. vm_compute. reflexivity. Qed.
