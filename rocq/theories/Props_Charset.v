(** * C42: characteristic sets (clpoly/charset.hh: rankcompare, is_reduced, basset, charset).

    The vocabulary ([main], [ascending], [initials], [pseudo_reduces]) is in CharsetSpec.v.  [compress] and
    [compress_v] are the packed products tried by operator* (see C13/C14), [ms1], [ms2], [s1], [s2] std::sort of
    monomial data and of polynomials, and [cgt] operator> on coefficients (it orders the std::set). *)
From Coq Require Import Ring Sorting.Sorted.
From Verif Require Import Prelude Coef Spec SpecProofs SpecOps SpecOpsProofs OrderSpec PairVec PairVecProofs Mono MonoProofs
  MonoStruct MonoStructProofs Library LibraryProofs Poly PolyMulProofs PolyOps MonoOpsProofs PolyOpsGen PolyOpsProofs PolyOps2Proofs
  ConvertProofs Prem PremProofs SortProofs QQ NumSpec QQProofs Props_Poly Props_Div Props_Ops GcdPoly GcdMath GcdLex Charset CharsetSpec CharsetWf CharsetProofs.
Local Open Scope Z_scope.

(** A larger fuel gives the same answer. *)
Lemma prem_core_mono {C} (K : coefs C) vo compress n G F v b R m : prem_core K vo compress n G F v b = Ok R -> (n <= m)%nat -> prem_core K vo compress m G F v b = Ok R.
Proof.
  unfold prem_core. destruct F as [|t r]; [intros; assumption|]. intros E L. destruct (is_number (t :: r)); [exact E|]. destruct (negb _); [exact E|].
  destruct (_ || _); [exact E|]. destruct (split_lead v _ (t :: r)) as [FL F_]. destruct (prem_step K vo compress v _ _ F_ G) as [[O1 G1]| | |]; try discriminate.
  cbn [obind] in *. destruct (prem_loop K vo compress n _ _ _ _ _ _ _) as [[[O' Qo] d]| | |] eqn:E1; try discriminate.
  rewrite (prem_loop_mono vo K compress v _ _ _ _ _ _ _ _ E1 m L). exact E.
Qed.
Lemma prem_lex_mono {C} (K : coefs C) vo compress cv ms1 ms2 s1 s2 n G F v b R m : prem_lex K vo compress cv ms1 ms2 s1 s2 n G F v b = Ok R -> (n <= m)%nat ->
  prem_lex K vo compress cv ms1 ms2 s1 s2 m G F v b = Ok R.
Proof.
  unfold prem_lex. destruct F as [|t r]; [intros; assumption|]. intros E L. destruct (is_number (t :: r)) eqn:En; [exact E|].
  destruct (lex_direct vo G (t :: r) v); [apply (prem_core_mono K vo compress n); assumption|].
  unfold prem_gen in *. rewrite En in *. destruct (prem_core K (vuniv v) cv n _ _ v b) as [O1| | |] eqn:E1; try discriminate.
  rewrite (prem_core_mono K _ _ n _ _ _ _ _ m E1 L). exact E.
Qed.

Section Statements.
Context (vo : vorder) (Hv : lib_vorder vo) (C : Type) (K : coefs C) (HD : domain_ok K) (HG : cgcd_ok K).
Context (cgt : C -> C -> bool) (Hcgt : forall a b, a = b \/ cgt a b = true \/ cgt b a = true).
Context (compress : poly C -> poly C -> outcome (option (poly C))) (compress_v : var -> poly C -> poly C -> outcome (option (poly C))).
Context (HC : comp_all (lexS vo) (mok vo) sm K compress) (HCv : forall v, comp_all (lexS (vuniv v)) (mok (vuniv v)) sm K (compress_v v)).
Context (ms1 : var -> list (var * Z) -> list (var * Z)) (ms2 : list (var * Z) -> list (var * Z)).
Context (s1 : var -> poly C -> poly C) (s2 : poly C -> poly C).
Context (Hm1 : forall v, msort_ok (vuniv v) (ms1 v)) (Hm2 : msort_ok vo ms2).
Context (Hs1 : forall v, sort_ok (mok (vuniv v)) (lex_gt (vuniv v)) (s1 v)) (Hs2 : sort_ok (mok vo) (lex_gt vo) s2).
Notation norm := (normal (mok vo) (lex_gt vo) K).
Notation graw := (graw sm).
Notation charset := (charset K cgt vo compress compress_v ms1 ms2 s1 s2).
Let Hvo : vorder_ok vo := lib_vorder_ok vo Hv.
Let HK : ring_ok K := domain_ring K HD.
Local Existing Instance HK.
Add Ring Kring : (ring_laws K HK).
Add Ring Rring : (rring K HK) (setoid (req_equiv K) (rring_ext K HK)).

Definition vars_of (P : list (poly C)) : list var := flat_map (fun p => flat_map (fun t => map fst (md (fst t))) p) P.
Lemma ex_absent l w : ~ In w (map fst l) -> csum Zc (N.eqb w) l = 0.
Proof.
  induction l as [|[x e] l IH]; intros H; [reflexivity|]. cbn [csum fst snd]. cbn in H. destruct (N.eqb_spec w x) as [->|n]; [tauto|]. apply IH. tauto.
Qed.
Lemma vars_of_ok P p : In p P -> norm p -> inVV K (vars_of P) p.
Proof.
  intros Hp Np w Hw. apply (vfree_zexp vo Hvo K HD p w Np). apply Forall_forall. intros t Ht. unfold zexp. apply ex_absent.
  intros X. apply Hw. unfold vars_of. apply in_flat_map. exists p. split; [exact Hp|]. apply in_flat_map. exists t. split; [exact Ht|exact X].
Qed.
Lemma sorted_nth {A} (R : A -> A -> Prop) l : StronglySorted R l -> forall i j a b, (i < j)%nat -> nth_error l i = Some a -> nth_error l j = Some b -> R a b.
Proof.
  induction 1 as [|x l HS IH HF]; intros i j a b L Ea Eb; [destruct i; discriminate|]. destruct j as [|j]; [lia|]. cbn in Eb. destruct i as [|i].
  - injection Ea as <-. apply nth_error_In in Eb. rewrite Forall_forall in HF. apply HF, Eb.
  - apply (IH i j); [lia|exact Ea|exact Eb].
Qed.
Lemma nth_map {A B} (f : A -> B) l i y : nth_error (map f l) i = Some y -> exists x, nth_error l i = Some x /\ y = f x.
Proof. revert i. induction l as [|a l IH]; intros [|i] E; cbn in *; try discriminate; [injection E as <-; eauto|apply IH, E]. Qed.

Lemma prem_chain_mono n m cs : forall f g, prem_chain K vo compress compress_v ms1 ms2 s1 s2 n cs f = Ok g -> (n <= m)%nat ->
  prem_chain K vo compress compress_v ms1 ms2 s1 s2 m cs f = Ok g.
Proof.
  induction cs as [|c cs IH]; intros f g E L; cbn [prem_chain] in *; [exact E|].
  destruct (prem_lex K vo compress _ _ _ _ _ n f c _ false) as [h| | |] eqn:Eh; try discriminate. cbn [obind] in E.
  rewrite (prem_lex_mono K vo _ _ _ _ _ _ n _ _ _ _ _ m Eh L). cbn [obind]. apply IH; assumption.
Qed.
Lemma remainders_mono n m B F : forall R, remainders K vo compress compress_v ms1 ms2 s1 s2 n B F = Ok R -> (n <= m)%nat ->
  remainders K vo compress compress_v ms1 ms2 s1 s2 m B F = Ok R.
Proof.
  induction F as [|f F IH]; intros R E L; cbn [remainders] in *; [exact E|].
  destruct (prem_chain _ _ _ _ _ _ _ _ n _ f) as [g| | |] eqn:Eg; try discriminate. cbn [obind] in E.
  destruct (remainders _ _ _ _ _ _ _ _ n B F) as [R'| | |] eqn:ER; try discriminate. cbn [obind] in E.
  rewrite (prem_chain_mono n m _ _ _ Eg L). cbn [obind]. rewrite (IH R' eq_refl L). exact E.
Qed.
Lemma loop_mono n : forall m F R, charset_loop K cgt vo compress compress_v ms1 ms2 s1 s2 n F = Ok R -> (n <= m)%nat ->
  charset_loop K cgt vo compress compress_v ms1 ms2 s1 s2 m F = Ok R.
Proof.
  induction n as [|n IH]; intros m F R E L; cbn [charset_loop] in E; [discriminate|]. destruct m as [|m]; [lia|]. cbn [charset_loop].
  destruct (basset vo n F) as [B| | |] eqn:EB; try discriminate. cbn [obind] in E. rewrite (basset_mono vo n F B m EB ltac:(lia)). cbn [obind].
  destruct B as [|c B]; [exact E|]. destruct (is_number c); [exact E|].
  destruct (remainders _ _ _ _ _ _ _ _ n (c :: B) F) as [R'| | |] eqn:ER; try discriminate. cbn [obind] in E.
  rewrite (remainders_mono n m _ _ _ ER ltac:(lia)). cbn [obind]. destruct R'; [exact E|]. apply IH; [exact E|lia].
Qed.
Lemma charset_mono n m P R : charset n P = Ok R -> (n <= m)%nat -> charset m P = Ok R.
Proof. unfold Charset.charset. destruct P; [intros; assumption|]. apply loop_mono. Qed.

(** For every finite list of non-zero polynomials, charset terminates.  Its members are in the ideal generated by the
    input.  Either the result is a single non-zero constant (then the ideal contains a constant), or it is an
    ascending chain by which every input polynomial pseudo-reduces to 0. *)
Theorem C42_charset : forall P, P <> [] -> Forall (fun p => norm p /\ p <> []) P ->
  exists Cs, terminates_with (fun fuel => charset fuel P) Cs /\ Forall norm Cs /\
    (forall c, In c Cs -> ideal K (map graw P) (graw c)) /\
    ((exists k, k <> c0 K /\ Cs = [[(mono1, k)]]) \/
     (Cs <> [] /\ (forall c, In c Cs -> exists x d, main K vo (graw c) x d) /\ ascending K vo (map graw Cs) /\
      forall p, In p P -> pseudo_reduces K vo (map graw Cs) (graw p) r0)).
Proof.
  intros P Pne HP.
  assert (NP : Forall norm P) by (eapply Forall_impl; [|exact HP]; intros x [Hx _]; exact Hx).
  assert (IP : forall z, In z (set_of K cgt vo P) <-> In z P).
  { intros z. unfold set_of. rewrite (set_fold_in vo Hvo K HD cgt Hcgt P [] NP (Forall_nil _) z). cbn. tauto. }
  assert (HL : linv vo K (vars_of P) P (set_of K cgt vo P)).
  { split; [|split; [|split; [|split]]].
    - intros E. destruct P as [|p P']; [congruence|]. assert (X : In p (set_of K cgt vo (p :: P'))) by (apply IP; left; reflexivity). rewrite E in X. destruct X.
    - apply Forall_forall. intros z Hz. apply IP in Hz. rewrite Forall_forall in HP. apply HP, Hz.
    - apply Forall_forall. intros z Hz. apply IP in Hz. apply vars_of_ok; [exact Hz|]. rewrite Forall_forall in NP. apply NP, Hz.
    - intros z Hz. apply IP, Hz.
    - intros z Hz. apply IP in Hz. apply ideal_gen, in_map, Hz. }
  destruct (basset_ex vo Hvo K HD (length (set_of K cgt vo P)) _ (le_n _) (proj1 (proj2 HL))) as [B EB].
  assert (LC : exists Cs, (exists n0, forall fuel, (n0 <= fuel)%nat -> charset_loop K cgt vo compress compress_v ms1 ms2 s1 s2 fuel (set_of K cgt vo P) = Ok Cs) /\ lres vo K P Cs).
  { destruct B as [|c B'].
    { pose proof (basset_inv vo Hvo K _ _ [] EB (proj1 (proj2 HL))). destruct HL. congruence. }
    destruct (is_number c) eqn:En.
    - exists (c :: B'). split; [|eapply stop_number; eauto]. exists (Datatypes.S (length (set_of K cgt vo P))). intros fuel Hf. destruct fuel as [|fuel]; [lia|]. cbn [charset_loop].
      rewrite (basset_mono vo _ _ _ fuel EB ltac:(lia)). cbn [obind]. rewrite En. reflexivity.
    - pose proof (basset_inv vo Hvo K _ _ _ EB (proj1 (proj2 HL))) as (Hc & Hmin & _). pose proof (min_good vo K _ c (proj1 (proj2 HL)) Hmin En) as GF.
      destruct (basset_good vo Hvo K HD _ _ _ EB GF) as (GB & IB & SB). pose proof HL as (_ & _ & VF & _).
      apply (loop_charset vo Hvo K HD HG cgt Hcgt compress compress_v HC HCv ms1 ms2 s1 s2 Hm1 Hm2 Hs1 Hs2 (vars_of P) P (map (key vo (vars_of P)) (c :: B')))
        with (n := length (set_of K cgt vo P)) (B := c :: B'); [|exact HL|exact EB|auto].
      apply (kr_wf (length (vars_of P)) (length (vars_of P)) 0); [lia|].
      apply (kval_chain vo Hvo K HD); [exact GB| |exact SB|apply Forall_forall; intros; lia].
      rewrite Forall_forall in *. intros x Hx. apply VF, IB, Hx. }
  destruct LC as (Cs & [n0 E] & NC & IC & HR). exists Cs. split; [exists n0; intros fuel Hf; unfold Charset.charset; destruct P; [congruence|]; apply E, Hf|].
  split; [eapply Forall_impl; [|exact NC]; intros x [Hx _]; exact Hx|]. split; [exact IC|]. destruct HR as [HR|(Cne & GC & SC & HR)]; [left; exact HR|right].
  assert (MC : forall c, In c Cs -> main K vo (graw c) (first_var c) (Z.to_N (first_deg c))).
  { intros c Hc. rewrite Forall_forall in GC. destruct (GC c Hc) as [Nc Ec]. apply (main_first vo Hvo K HD c Nc Ec). }
  split; [exact Cne|]. split; [intros c Hc; exists (first_var c), (Z.to_N (first_deg c)); apply MC, Hc|]. split.
  - intros i j c c' L Ei Ej. apply nth_map in Ei as (a & Ei & ->). apply nth_map in Ej as (b & Ej & ->).
    destruct (sorted_nth _ _ SC i j a b L Ei Ej) as [H1 H2]. pose proof (nth_error_In _ _ Ei) as Ia. pose proof (nth_error_In _ _ Ej) as Ib.
    exists (first_var a), (Z.to_N (first_deg a)), (first_var b), (Z.to_N (first_deg b)). split; [apply MC, Ia|]. split; [apply MC, Ib|]. split; [exact H1|].
    rewrite Forall_forall in GC. apply (deg_of_reduced vo Hvo K HD); [apply GC, Ib|apply GC, Ia|exact H2].
  - intros p Hp. split.
    + destruct (HR p Hp) as (i & Hi & HI). exists i. split; [exact Hi|]. apply (ideal_eq K _ (rmul K i (graw p))); [ring|exact HI].
    + intros c x d _ _ m Hm. exfalso. apply Hm. reflexivity.
Qed.

(** Zeros: every common zero of the input is a common zero of the result, and every zero of the result at which no
    initial vanishes is a common zero of the input (Wu's well-ordering principle). *)
Lemma ideal_zero gs p rho : (forall g, In g gs -> reval K rho g = c0 K) -> ideal K gs p -> reval K rho p = c0 K.
Proof.
  intros H. induction 1 as [g Hg| |p q _ IHp _ IHq|a p _ IH|p q E _ IH].
  - apply H, Hg.
  - reflexivity.
  - rewrite (reval_add K HK), IHp, IHq. ring.
  - rewrite (reval_mul K HK), IH. ring.
  - rewrite <- E. exact IH.
Qed.
Lemma initials_nz cs i rho : (forall c x d, In c cs -> main K vo c x d -> reval K rho (rcoeff K x d c) <> c0 K) -> initials K vo cs i -> reval K rho i <> c0 K.
Proof.
  intros H. induction 1 as [|c x d p Hc Hm Hp IH|p q E Hp IH].
  - cbn. intros X. apply (domain_nontrivial K HD). rewrite <- X. ring.
  - rewrite (reval_mul K HK). intros X. apply (domain_integral K HD) in X as [X|X]; [exact (H c x d Hc Hm X)|exact (IH X)].
  - rewrite <- E. exact IH.
Qed.
Theorem C42_zeros : forall P Cs n rho, P <> [] -> Forall (fun p => norm p /\ p <> []) P -> charset n P = Ok Cs ->
  ((forall p, In p P -> reval K rho (graw p) = c0 K) -> forall c, In c Cs -> reval K rho (graw c) = c0 K) /\
  ((forall c, In c Cs -> reval K rho (graw c) = c0 K) ->
   (forall c x d, In c Cs -> main K vo (graw c) x d -> reval K rho (rcoeff K x d (graw c)) <> c0 K) ->
   forall p, In p P -> reval K rho (graw p) = c0 K).
Proof.
  intros P Cs n rho Pne HP E. destruct (C42_charset P Pne HP) as (Cs' & [n0 T] & _ & HI & HR).
  assert (EC : Cs = Cs').
  { assert (M : charset (Nat.max n n0) P = Ok Cs) by (apply (charset_mono n); [exact E|lia]). rewrite T in M by lia. congruence. }
  subst Cs'. split.
  - intros HZ c Hc. apply (ideal_zero (map graw P)); [|apply HI, Hc]. intros g Hg. apply in_map_iff in Hg as (p & <- & Hp). apply HZ, Hp.
  - intros HZ Hnz p Hp. destruct HR as [(k & Nk & EC)|(_ & _ & _ & HR)].
    + exfalso. specialize (HZ [(mono1, k)]). rewrite EC in HZ. specialize (HZ (or_introl eq_refl)). cbn in HZ. apply Nk. rewrite <- HZ. ring.
    + destruct (HR p Hp) as [(i & Hi & Hid) _]. apply (ideal_zero _ _ rho) in Hid; [|intros g Hg; apply in_map_iff in Hg as (c & <- & Hc); apply HZ, Hc].
      assert (X : cmul K (reval K rho i) (reval K rho (graw p)) = c0 K).
      { rewrite <- (reval_mul K HK). rewrite <- Hid. apply (reval_proper K HK). ring. }
      apply (domain_integral K HD) in X as [X|X]; [|exact X]. exfalso. revert X. apply (initials_nz (map graw Cs)); [|exact Hi].
      intros c x d Hc. apply in_map_iff in Hc as (c' & <- & Hc'). apply Hnz, Hc'.
Qed.

(** An input list containing the zero polynomial makes charset run forever: basset keeps the zero polynomial (it counts
    as reduced with respect to everything, itself included). *)
Lemma basset_zero n : forall F : list (poly C), In [] F -> basset vo n F = OutOfFuel.
Proof.
  induction n as [|n IH]; intros F H; (destruct F as [|f r]; [destruct H|]); [reflexivity|]. cbn [basset]. rewrite IH; [reflexivity|].
  apply filter_In. split; [exact H|reflexivity].
Qed.
Theorem C42_zero_member_refuted : forall P, Forall norm P -> In [] P -> forall fuel, charset fuel P = OutOfFuel.
Proof.
  intros P NP H fuel. unfold Charset.charset. destruct P as [|p P']; [destruct H|]. set (P := p :: P') in *.
  assert (X : In [] (set_of K cgt vo P)).
  { unfold set_of. apply (set_fold_in vo Hvo K HD cgt Hcgt P [] NP (Forall_nil _)). left. exact H. }
  destruct fuel as [|fuel]; [reflexivity|]. cbn [charset_loop]. rewrite (basset_zero fuel _ X). reflexivity.
Qed.
End Statements.
Print Assumptions C42_charset.
Print Assumptions C42_zeros.
Print Assumptions C42_zero_member_refuted.

(** Example: x > y, P = { x*y - 1, x^2 + y^2 - 4 }: the characteristic set is { y^4 - 4 y^2 + 1, x*y - 1 }. *)
Definition cs_x : var := 1%N. Definition cs_y : var := 2%N.
Definition cs_P : list (poly Z) :=
  [ [(re_deg [(cs_x, 1); (cs_y, 1)], 1); (mono1, -1)];
    [(re_deg [(cs_x, 2)], 1); (re_deg [(cs_y, 2)], 1); (mono1, -4)] ].
Definition cs_vo : vorder := vcustom (vmap_of [cs_x; cs_y]).
Definition cs_run (n : nat) (P : list (poly Z)) : outcome (list (poly Z)) :=
  charset Zc Z.gtb cs_vo no_compress (fun _ => no_compress) (fun v => isort (vuniv v)) (isort cs_vo)
    (fun v => isort (lex_gt (vuniv v))) (isort (lex_gt cs_vo)) n P.
Example C42_example : cs_run 10 cs_P =
    Ok [ [(re_deg [(cs_y, 4)], 1); (re_deg [(cs_y, 2)], -4); (mono1, 1)]; [(re_deg [(cs_x, 1); (cs_y, 1)], 1); (mono1, -1)] ] /\
  Forall (fun p => normal (mok cs_vo) (lex_gt cs_vo) Zc p /\ p <> []) cs_P.
Proof. split; [vm_compute; reflexivity|]. repeat constructor; discriminate. Qed.
Example C42_example_hyps : lib_vorder cs_vo /\ domain_ok Zc /\ cgcd_ok Zc /\ (forall a b : Z, a = b \/ (a >? b) = true \/ (b >? a) = true).
Proof. split; [constructor|]. split; [exact Zc_domain|]. split; [exact Z_cgcd|]. intros a b. lia. Qed.
(** An inconsistent system gives a constant: { x, x + 1 } *)
Example C42_example_const : cs_run 10 [ [(re_deg [(cs_x, 1)], 1)]; [(re_deg [(cs_x, 1)], 1); (mono1, 1)] ] = Ok [ [(mono1, 1)] ].
Proof. vm_compute. reflexivity. Qed.
(** The zero polynomial. *)
Example C42_example_zero : cs_run 50 [ [(re_deg [(cs_x, 1)], 1)]; [] ] = OutOfFuel.
Proof. vm_compute. reflexivity. Qed.
