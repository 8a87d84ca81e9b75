(** * More proofs about the polynomial layer: substitution of trailing variables, derivative by the first
      variable, sums of monomials, the coefficient list in any order. *)
From Coq Require Import Ring Setoid Morphisms Sorting.Sorted Permutation.
From Verif Require Import Prelude Coef Spec SpecProofs SpecOps SpecOpsProofs OrderSpec PairVec PairVecProofs Mono MonoProofs
  MonoStruct MonoStructProofs Poly PolyMulProofs PolyOps MonoOpsProofs PolyOpsGen PolyOpsProofs PolyOps2Proofs ConvertProofs.
Local Open Scope Z_scope.

Section L.
Context (vo : vorder) (Hvo : vorder_ok vo).
Context {C : Type} (K : coefs C) (HK : ring_ok K).
Notation S := (lexS vo).
Notation gt := (lex_gt vo).
Notation norm := (normal (mok vo) gt K).
Notation graw := (graw sm).
Notation poly := (poly C).
Let M1 := lexS_ok vo Hvo.
Let HO := ms_order S (mok vo) sm M1.

(** ** substitution of variables that all come after the remaining ones *)
Variable rho : var -> option C.
Variable P : var -> Prop.     (* the variables that may occur *)
Hypothesis Hlast : forall v w, P v -> P w -> rho v = None -> rho w <> None -> vo v w = true.
Definition vars_P (p : poly) : Prop := Forall (fun t => forall v, zexp (fst t) v <> 0 -> P v) p.
Lemma asg_mono_weak a b : mok vo a -> mok vo b -> (forall v, zexp a v <> 0 -> P v) -> (forall v, zexp b v <> 0 -> P v) -> gt a b = true ->
  asg_mono rho a = asg_mono rho b \/ gt (asg_mono rho a) (asg_mono rho b) = true.
Proof.
  intros Ha Hb Pa Pb G. apply (lex_gt_spec vo Hvo) in G as (v & L & E); [|assumption|assumption].
  destruct (asg_mono_spec vo rho a Ha) as [Oa Xa]. destruct (asg_mono_spec vo rho b Hb) as [Ob Xb].
  destruct (rho v) eqn:Ev.
  - left. apply (mok_ext vo Hvo); [exact Oa|exact Ob|]. intros w. rewrite Xa, Xb. destruct (rho w) eqn:Ew; [reflexivity|].
    destruct (Z.eq_dec (zexp a w) (zexp b w)) as [e|e]; [exact e|].
    assert (Pw : P w) by (destruct (Z.eq_dec (zexp a w) 0); [apply Pb; lia|apply Pa; assumption]).
    assert (Pv : P v). { apply Pa. pose proof (zexp_nonneg vo b v Hb). lia. }
    apply E, Hlast; [exact Pw|exact Pv|exact Ew|congruence].
  - right. apply (lex_gt_spec vo Hvo); [exact Oa|exact Ob|]. exists v. rewrite Xa, Xb, Ev. split; [exact L|].
    intros w Hw. rewrite Xa, Xb. rewrite (E w Hw). reflexivity.
Qed.
Lemma asg_go_desc p : norm p -> vars_P p -> forall pend,
  match pend with None => True | Some (m1, _) => mok vo m1 /\ Forall (fun t => asg_mono rho (fst t) = m1 \/ gt m1 (asg_mono rho (fst t)) = true) p end ->
  desc gt (asg_go K rho pend p) /\
  match pend with None => True | Some (m1, _) => Forall (fun t => fst t = m1 \/ gt m1 (fst t) = true) (asg_go K rho pend p) end.
Proof.
  intros N HP. induction p as [|t p IH]; intros pend H; cbn [asg_go].
  - destruct pend as [[m1 z1]|]; [|split; [constructor|exact I]]. destruct (is0 K z1); split; repeat constructor.
  - pose proof (normal_cons (mok vo) gt K t p) as NC. apply NC in N as (Ot & _ & Gt & Np). clear NC. pose proof (Forall_inv HP) as P1. pose proof (Forall_inv_tail HP) as P2. cbv beta in P1. specialize (IH Np P2).
    assert (Hm : mok vo (asg_mono rho (fst t))) by apply (asg_mono_spec vo rho _ Ot).
    assert (W : Forall (fun u => asg_mono rho (fst u) = asg_mono rho (fst t) \/ gt (asg_mono rho (fst t)) (asg_mono rho (fst u)) = true) p).
    { apply Forall_forall. intros u Hu. destruct Np as (A & _). unfold all_ok in A. rewrite Forall_forall in A, Gt.
      destruct (asg_mono_weak (fst t) (fst u) Ot (A u Hu) P1 (proj1 (Forall_forall _ _) P2 u Hu) (Gt u Hu)) as [E|E]; [left; symmetry; exact E|right; exact E]. }
    destruct pend as [[m1 z1]|].
    + destruct H as [Om H]. pose proof (Forall_inv H) as H1. pose proof (Forall_inv_tail H) as H2. cbv beta in H1.
      pose proof (ms_eq S (mok vo) sm M1 (asg_mono rho (fst t)) m1) as EQ. cbn [m_eq lexS] in EQ.
      destruct (mono_eqb (asg_mono rho (fst t)) m1) eqn:E.
      * cbn [negb]. apply IH. split; [exact Om|exact H2].
      * assert (E' : asg_mono rho (fst t) <> m1) by (intros X; apply EQ in X; congruence).
        cbn [negb]. destruct H1 as [H1|H1]; [contradiction|].
        destruct (IH (Some (asg_mono rho (fst t), asg_coef K rho (snd t) (fst t))) (conj Hm W)) as [D F].
        assert (F2 : Forall (fun u => gt m1 (fst u) = true) (asg_go K rho (Some (asg_mono rho (fst t), asg_coef K rho (snd t) (fst t))) p)).
        { pose proof (asg_go_keys K (mok vo) rho p (Some (asg_mono rho (fst t), asg_coef K rho (snd t) (fst t)))) as OK.
          assert (OK' := OK ltac:(constructor; [exact Hm|constructor])). clear OK.
          assert (Op : Forall (fun t => mok vo (asg_mono rho (fst t))) p).
          { apply Forall_forall. intros u Hu. apply (asg_mono_spec vo rho). destruct Np as (A & _). unfold all_ok in A. rewrite Forall_forall in A. apply A, Hu. }
          specialize (OK' Op). rewrite Forall_forall in *. intros u Hu. specialize (F u Hu). specialize (OK' u Hu). cbv beta in *.
          destruct F as [F|F]; [rewrite F; exact H1|]. apply (gt_trans _ _ HO _ (asg_mono rho (fst t))); assumption. }
        split.
        -- destruct (is0 K z1); [exact D|]. apply (desc_cons gt). split; [exact D|exact F2].
        -- destruct (is0 K z1); cbn [app]; [|constructor; [left; reflexivity|]]; (eapply Forall_impl; [|exact F2]; cbv beta; intros u Hu; right; exact Hu).
    + destruct (IH (Some (asg_mono rho (fst t), asg_coef K rho (snd t) (fst t))) (conj Hm W)) as [D F]. split; [exact D|exact I].
Qed.
Lemma assign_last_normal srt p : norm p -> vars_P p -> norm (p_assign K gt srt rho p).
Proof.
  intros N HP. unfold p_assign. change mono_eqb with (m_eq S).
  assert (N' : norm (asg_go K rho None p)).
  { split; [|split].
    - apply (asg_go_keys K (mok vo)); [constructor|]. apply Forall_forall. intros t Ht. apply (asg_mono_spec vo rho).
      apply (norm_in S (mok vo) K p t N Ht).
    - apply (asg_go_desc p N HP None I).
    - apply (asg_go_nonzero K HK). }
  rewrite (normalization_id (mok vo) gt (m_eq S) K HO (ms_eq S (mok vo) sm M1) HK srt _ N'). exact N'.
Qed.
End L.

Section D.
Context (vo : vorder) (Hvo : vorder_ok vo).
Context {C : Type} (K : coefs C) (HK : ring_ok K).
Notation norm := (normal (mok vo) (lex_gt vo) K).

(** ** derivative by the first variable *)
Lemma derivative_lex_eq (p : poly C) : norm p -> p_derivative_lex K p = p_derivative K (first_var p) p.
Proof.
  intros N. unfold p_derivative_lex, p_derivative. set (x := first_var p).
  assert (T : Forall (fun t => mok vo (fst t) /\ topm vo x (fst t)) p).
  { destruct p as [|t r]; [constructor|]. unfold x. clear x. destruct (md (fst t)) as [|a l] eqn:E.
    - destruct (first_const vo K r t N E) as [Et ->]. constructor; [|constructor]. rewrite Et. split; [apply mok_1|constructor].
    - assert (T : topp vo (first_var (t :: r)) (t :: r)) by (apply (first_top vo Hvo K); [exact N|rewrite E; discriminate]).
      apply Forall_and; [apply N|exact T]. }
  clearbody x. clear N. induction T as [|t r [O T] _ IH]; [reflexivity|]. cbn [flat_map]. rewrite IH. f_equal. clear IH.
  rewrite (dexp_spec vo Hvo x _ O). unfold dmono.
  destruct (topm_shape vo Hvo x (fst t) O T) as [[[E|(w & e & l & E & Hw)] Z]|(e & l & E & Ee & P)]; rewrite E.
  - unfold zexp. rewrite E. reflexivity.
  - rewrite Z. destruct (N.eqb_spec x w) as [e0|_]; [|reflexivity]. subst w. rewrite (vo_irrefl vo Hvo) in Hw. discriminate.
  - rewrite N.eqb_refl, <- Ee. destruct (Z.eqb_spec e 0); [lia|]. cbn [flat_map fst snd]. rewrite N.eqb_refl.
    assert (Fl : flat_map (fun j : N * Z => if N.eqb (fst j) x then if snd j - 1 =? 0 then [] else [(x, snd j - 1)] else [j]) l = l).
    { apply mok_dok in O. rewrite E in O. apply dok_cons in O as (_ & G & _). clear -G Hvo. cbn [fst] in G. induction G as [|j l Hj _ IH]; [reflexivity|].
      cbn [flat_map]. rewrite IH. destruct (N.eqb_spec (fst j) x) as [e0|_]; [|reflexivity]. rewrite e0, (vo_irrefl vo Hvo) in Hj. discriminate. }
    rewrite Fl. reflexivity.
Qed.

End D.

(** ** coeff in any order *)
Section Co.
Context (vo : vorder) (Hvo : vorder_ok vo) (S : monos mono) (HSS : S = lexS vo \/ S = grlexS vo).
Context {C : Type} (K : coefs C) (HK : ring_ok K) (v : var) (Hu : vorder_ok (vuniv v)).
Notation norm := (normal (mok vo) (m_gt S) K).
Context (ms1 ms2 : list (var * Z) -> list (var * Z)) (s1 s2 : poly C -> poly C).
Context (Hm1 : sort_ok (fun _ : var => True) (vuniv v) ms1) (Hm2 : sort_ok (fun _ : var => True) vo ms2).
Context (Hs1 : sort_ok (mok (vuniv v)) (lex_gt (vuniv v)) s1) (Hs2 : sort_ok (mok vo) (m_gt S) s2).
Lemma p_coeff_spec F : norm F -> exists cs, p_coeff K vo (m_gt S) ms1 ms2 s1 s2 F v = Ok cs /\
  length cs = Z.to_nat (p_degree F v + 1) /\
  forall j, (j < length cs)%nat -> norm (nth j cs []) /\ req K (graw sm (nth j cs [])) (rcoeff K v (N.of_nat j) (graw sm F)).
Proof.
  intros N. unfold p_coeff. set (U := p_convert _ _ _ _ _ _ F).
  destruct (convert_spec vo (vuniv v) Hvo Hu S (lexS (vuniv v)) HSS (or_introl eq_refl) K K HK HK (fun c => c) eq_refl ms1 Hm1 s1 Hs1 F N) as [NU RU].
  fold U in NU, RU. cbn [m_gt lexS] in NU, RU. fold U in NU, RU.
  assert (DU : p_degree U v = p_degree F v).
  { destruct (p_degree_spec vo Hvo S HSS K HK F v N) as [P1 D1].
    destruct (p_degree_spec (vuniv v) Hu (lexS (vuniv v)) (or_introl eq_refl) K HK U v NU) as [P2 D2].
    assert (R : req K (graw sm U) (graw sm F)) by exact RU. rewrite R in D2. pose proof (deg_is_unique K _ _ _ _ D1 D2). lia. }
  destruct (coeff_up_spec (vuniv v) Hu K HK v U NU (topp_univ _ v _ eq_refl)) as (cs & E & L & X).
  rewrite E. cbn [obind]. eexists. split; [reflexivity|]. rewrite map_length, L, DU. split; [reflexivity|].
  intros j Hj. assert (Hj' : (j < length cs)%nat) by (rewrite L, DU; exact Hj).
  set (f := fun c => p_convert K vo (m_gt S) ms2 s2 (fun a => a) c).
  rewrite (nth_indep (map f cs) [] (f [])) by (rewrite map_length; exact Hj'). rewrite map_nth, (X j Hj').
  destruct (cls_spec (vuniv v) Hu (lexS (vuniv v)) (or_introl eq_refl) K HK v (Z.of_nat j) U NU ltac:(lia)) as [NC RC].
  destruct (convert_spec (vuniv v) vo Hu Hvo (lexS (vuniv v)) S (or_introl eq_refl) HSS K K HK HK (fun c => c) eq_refl ms2 Hm2 s2 Hs2 _ NC) as [ND RD].
  split; [exact ND|]. intros s. unfold f. rewrite RD. rewrite (RC s). replace (Z.to_N (Z.of_nat j)) with (N.of_nat j) by lia.
  assert (R : req K (graw sm U) (graw sm F)) by exact RU. rewrite R. reflexivity.
Qed.
End Co.
