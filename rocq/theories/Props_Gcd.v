(** * C27, C29, C30: greatest common divisors, contents, primitive parts and squarefree factorization of
      integer polynomials.

    The functions draw primes and evaluation points; [ps] is any sequence of primes, [rnd] any sequence of
    points, [fuel] any bound on the work: the theorems are about every value returned, for all of them.
    [mcomp], [qcomp], [rcomp], [zcomp] are the packed-monomial shortcuts tried by operator* and by the
    divisions; [gcd_env] says that they answer correctly whenever they answer ([gcd_env_plain]: true when
    they never answer) and that the sorts sort.  [graw sm p] is the polynomial a value denotes, [rdivides]
    is divisibility in Z[x1,x2,...] (Spec.v).  [vfree Zc 0 p]: the variable with serial number 0, which
    [variable()] makes and which the code uses as "no variable", does not occur in p. *)
From Coq Require Import Ring_theory Ring Setoid Morphisms Znumtheory.
From Verif Require Import Prelude Coef Spec SpecProofs SpecOps SpecOpsProofs GcdDom GcdPoly GcdMath OrderSpec PairVec PairVecProofs
  Mono MonoProofs MonoStruct MonoStructProofs Heap Poly PolyMulProofs Div PolyDivProofs PolyOps MonoOpsProofs PolyOpsGen PolyOpsProofs
  PolyOps2Proofs ConvertProofs PolyOps3Proofs Groebner Zp NumSpec ZpProofs Gcd GcdHom GcdLex GcdZpProofs GcdCont GcdRep GcdTerm GcdProofs GcdMain
  SqfMath Sqf SqfProofs Library LibraryProofs SortProofs Props_Poly Props_Div Props_Ops.
Local Open Scope Z_scope.

Notation "a == b" := (req Zc a b) (at level 70).
Notation "a %| b" := (rdivides Zc a b) (at level 70).
Notation npoly vo := (normal (mok vo) (lex_gt vo) Zc).

(** Specification. *)
(** g is a greatest common divisor of a and b. *)
Definition greatest_common_divisor (a b g : rpoly Z) : Prop := g %| a /\ g %| b /\ forall d, d %| a -> d %| b -> d %| g.
(** c is a content of p with respect to v: free of v, and a greatest common divisor of the coefficients of p
    as a polynomial in v. *)
Definition content (v : var) (p c : rpoly Z) : Prop :=
  vfree Zc v c /\ (forall n, c %| rcoeff Zc v n p) /\ forall d, vfree Zc v d -> (forall n, d %| rcoeff Zc v n p) -> d %| c.
Definition one_or_minus_one (h : rpoly Z) : Prop := h == rconst 1 \/ h == rconst (-1).
(** the product of powers of a list of factors with multiplicities *)
Fixpoint product (l : list (poly Z * nat)) : rpoly Z :=
  match l with [] => rconst 1 | (q, e) :: l => rmul Zc (rpow Zc (graw sm q) e) (product l) end.
Definition squarefree (p : rpoly Z) : Prop := forall h, rmul Zc h h %| p -> one_or_minus_one h.
Definition no_common_factor (p q : rpoly Z) : Prop := forall h, h %| p -> h %| q -> one_or_minus_one h.
(** every square factor is a constant: squarefree as a polynomial over the rationals *)
Definition squarefree_nonconstant (p : rpoly Z) : Prop := forall h, rmul Zc h h %| p -> exists k, h == rconst k.

Local Instance HKz : ring_ok Zc := domain_ring Zc Zc_domain.
Add Ring Rring : (rring Zc HKz) (setoid (req_equiv Zc) (rring_ext Zc HKz)).
Lemma unit_pm h : unit Zc h <-> one_or_minus_one h.
Proof.
  rewrite unit_spec. unfold one_or_minus_one. split.
  - intros (c & E & [->| ->]); auto.
  - intros [E|E]; eauto.
Qed.
Lemma content_iff v p c : is_cont Zc v p c <-> content v p c.
Proof.
  unfold is_cont, content. split; intros (A & B & C); (split; [exact A|]); (split; [apply (rd_rcoeff Zc Zc_domain v c p A); exact B|]).
  - intros d Fd Dd. apply C; [exact Fd|]. apply (rd_rcoeff Zc Zc_domain v d p Fd), Dd.
  - intros d Fd Dd. apply C; [exact Fd|]. apply (rd_rcoeff Zc Zc_domain v d p Fd), Dd.
Qed.
Lemma product_rprod l : product l == rprod (graws l).
Proof. induction l as [|[q e] l IH]; cbn [product graws map rprod fold_right fst snd]; [reflexivity|]. rewrite IH. reflexivity. Qed.
Lemma rrad_in l t : In t l -> fst t %| rrad l.
Proof.
  induction l as [|u l IH]; intros H; [destruct H|]. cbn [rrad fold_right]. destruct H as [->|H].
  - exists (rrad l). unfold rrad. ring.
  - destruct (IH H) as [q E]. exists (rmul Zc (fst u) q). fold (rrad l). rewrite E. ring.
Qed.
Lemma rrad_pairs l : (forall h, rmul Zc h h %| rrad l -> unit Zc h) ->
  Forall (fun t => squarefree (fst t)) l /\ ForallOrdPairs (fun t u => no_common_factor (fst t) (fst u)) l.
Proof.
  induction l as [|t l IH]; intros H; [split; constructor|]. cbn [rrad fold_right] in H. fold (rrad l) in H. destruct IH as [A B].
  { intros h [q E]. apply H. exists (rmul Zc (fst t) q). rewrite E. ring. }
  split; constructor; try assumption.
  - intros h [q E]. apply unit_pm, H. exists (rmul Zc q (rrad l)). rewrite E. ring.
  - apply Forall_forall. intros u Hu h [a Ea] D. apply unit_pm, H.
    destruct (rrad_in l u Hu) as [b Eb]. destruct D as [c Ec]. exists (rmul Zc a (rmul Zc b c)). rewrite Ea, Eb, Ec. ring.
Qed.
Lemma ForallOrdPairs_map {A B} (f : A -> B) (R : B -> B -> Prop) l : ForallOrdPairs R (map f l) -> ForallOrdPairs (fun a b => R (f a) (f b)) l.
Proof. induction l; intros H; [constructor|]. inversion H; subst. constructor; [rewrite Forall_map in *; assumption|auto]. Qed.

Lemma good_of vo p : vorder_ok vo -> npoly vo p -> vfree Zc 0%N (graw sm p) -> good vo p.
Proof.
  intros Hvo N F. split; [exact N|]. apply (vfree_zexp vo Hvo Zc Zc_domain p 0%N N) in F. unfold nz0, vars_P.
  eapply Forall_impl; [|exact F]. cbv beta. intros t E w Hw ->. contradiction.
Qed.

Section Statements.
Context (vo : vorder) (HL : lib_vorder vo).
Variable msrt : list (var * Z) -> list (var * Z).
Variable srt : forall C : Type, Mono.poly C -> Mono.poly C.
Variable mcomp qcomp : poly Z -> poly Z -> outcome (option (poly Z)).
Variable rcomp : poly Z -> poly Z -> outcome (option (poly Z * poly Z)).
Variable zcomp : forall p (Hp : modulus p), Mono.poly (zpc p) -> Mono.poly (zpc p) -> outcome (option (Mono.poly (zpc p) * Mono.poly (zpc p))).
Variable ps : nat -> pmod.
Variable rnd : path -> nat -> Z.
Context (Env : gcd_env vo msrt srt mcomp qcomp rcomp zcomp ps).
Notation gcd := (poly_gcd vo msrt srt mcomp qcomp rcomp zcomp ps rnd).
Notation cont := (poly_cont vo msrt srt mcomp qcomp rcomp zcomp ps rnd).
Notation pp := (poly_pp vo msrt srt mcomp qcomp rcomp zcomp ps rnd).
Notation is_sqf := (is_squarefree vo msrt srt mcomp qcomp rcomp zcomp ps rnd).
Notation sqf := (squarefreefactorize vo msrt srt mcomp qcomp rcomp zcomp ps rnd).
Let Hvo : vorder_ok vo := lib_vorder_ok vo HL.

(** gcd of two polynomials in lexicographic order: more than a common divisor, a greatest one. *)
Theorem C27_gcd : forall fuel pa F G R, npoly vo F -> npoly vo G -> vfree Zc 0%N (graw sm F) -> vfree Zc 0%N (graw sm G) ->
  gcd fuel pa F G = Ok R ->
  npoly vo R /\ greatest_common_divisor (graw sm F) (graw sm G) (graw sm R).
Proof.
  intros fuel pa F G R NF NG VF VG E.
  apply (poly_gcd_ok vo Hvo _ _ _ _ _ _ _ _ Env _ _ F G R (good_of vo F Hvo NF VF) (good_of vo G Hvo NG VG) E).
Qed.
(** The content of F (with respect to its main variable). *)
Theorem C29_content : forall fuel pa F c, npoly vo F -> vfree Zc 0%N (graw sm F) -> cont fuel pa F = Ok c ->
  npoly vo c /\ content (first_var F) (graw sm F) (graw sm c).
Proof.
  intros fuel pa F c N V E. destruct (poly_cont_ok vo Hvo _ _ _ _ _ _ _ _ Env _ _ F c (good_of vo F Hvo N V) E) as ([Nc _] & A & B).
  split; [exact Nc|]. apply content_iff. destruct F as [|t F]; [|apply B; discriminate].
  rewrite A by reflexivity. apply (is_cont_free Zc Zc_domain). intros m Hm. exfalso. apply Hm. reflexivity.
Qed.
(** The primitive part: the only divisors of pp(F) free of the main variable are 1 and -1, and pp(F)*cont(F) is F
    up to the sign of the content (two runs of the content, with different draws, differ by a sign at most). *)
Theorem C29_primitive_part : forall fuel pa F q, npoly vo F -> vfree Zc 0%N (graw sm F) -> F <> [] -> pp fuel pa F = Ok q ->
  npoly vo q /\
  (forall h, vfree Zc (first_var F) h -> h %| graw sm q -> one_or_minus_one h) /\
  (exists c, content (first_var F) (graw sm F) c /\ graw sm F == rmul Zc (graw sm q) c) /\
  forall fuel' pa' c, cont fuel' pa' F = Ok c ->
    graw sm F == rmul Zc (graw sm q) (graw sm c) \/ graw sm F == ropp Zc (rmul Zc (graw sm q) (graw sm c)).
Proof.
  intros fuel pa F q N V Ne E. pose proof (good_of vo F Hvo N V) as GF.
  destruct (poly_pp_ok vo Hvo _ _ _ _ _ _ _ _ Env _ _ F q GF E) as (Nq & _ & H). destruct (H Ne) as (c & Gc & Ic & Ef & Pr).
  split; [exact Nq|]. split; [intros h Fh Dh; apply unit_pm, (Pr h Fh Dh)|].
  split; [exists (graw sm c); split; [apply content_iff, Ic|exact Ef]|].
  intros fuel' pa' c' E'. destruct (poly_cont_ok vo Hvo _ _ _ _ _ _ _ _ Env _ _ F c' GF E') as (_ & _ & I').
  specialize (I' Ne). destruct Ic as (Fc & Dc & Uc), I' as (Fc' & Dc' & Uc').
  pose proof (Uc' _ Fc Dc) as D1. pose proof (Uc _ Fc' Dc') as D2.
  assert (Nz : ~ graw sm F == r0) by exact (proj1 (nz_iff vo Hvo Zc Zc_domain F N) Ne).
  destruct D1 as [a Ea], D2 as [b Eb].
  assert (U : unit Zc b).
  { exists a. apply (rcancel Zc Zc_domain Z_cgcd _ _ (graw sm c)); [intros X; apply Nz; rewrite Ef, X; ring|].
    transitivity (graw sm c); [ring|]. rewrite Eb at 1. rewrite Ea at 1. ring. }
  apply unit_pm in U. destruct U as [U|U].
  - left. rewrite Ef. rewrite Eb, U. change (rconst 1) with (r1 Zc). ring.
  - right. rewrite Ef. rewrite Eb, U. change (rconst (-1)) with (ropp Zc (r1 Zc)). ring.
Qed.

(** Squarefree factorization: a constant followed by factors with multiplicities, whose product is exactly F;
    every factor is squarefree and no two have a common factor. *)
Theorem C30_squarefree_factorization : forall fuel pa F r, npoly vo F -> vfree Zc 0%N (graw sm F) -> F <> [] -> sqf fuel pa F = Ok r ->
  product r == graw sm F /\
  exists c l, r = (c, 1%nat) :: l /\ (exists k, graw sm c == rconst k) /\ Forall (fun t => npoly vo (fst t) /\ (1 <= snd t)%nat) r /\
    Forall (fun t => squarefree (graw sm (fst t))) l /\
    ForallOrdPairs (fun t u => no_common_factor (graw sm (fst t)) (graw sm (fst u))) l.
Proof.
  intros fuel pa F r N V Ne E.
  destruct (squarefreefactorize_ok vo Hvo _ _ _ _ _ _ _ _ Env fuel pa F r (good_of vo F Hvo N V) Ne E) as (c & l & -> & Gc & Kc & Fl & Ep & Sq).
  split; [rewrite product_rprod; exact Ep|]. exists c, l. split; [reflexivity|]. split; [exact Kc|]. split.
  { constructor; [split; [apply Gc|apply Nat.le_refl]|]. eapply Forall_impl; [|exact Fl]. intros t [[Nt _] Ht]. auto. }
  apply rrad_pairs in Sq as [A B]. split.
  - unfold graws in A. rewrite Forall_map in A. exact A.
  - unfold graws in B. apply ForallOrdPairs_map in B. exact B.
Qed.
(** is_squarefree(F) is true exactly if every square factor of F is a constant. *)
Theorem C30_is_squarefree : forall fuel pa F b, npoly vo F -> vfree Zc 0%N (graw sm F) -> is_sqf fuel pa F = Ok b ->
  (b = true <-> squarefree_nonconstant (graw sm F)).
Proof. intros fuel pa F b N V E. apply (is_squarefree_ok vo Hvo _ _ _ _ _ _ _ _ Env fuel pa F b (good_of vo F Hvo N V) E). Qed.
End Statements.
Print Assumptions C27_gcd.
Print Assumptions C29_content.
Print Assumptions C29_primitive_part.
Print Assumptions C30_squarefree_factorization.
Print Assumptions C30_is_squarefree.

(** ** Other monomial orders: gcd, is_squarefree and squarefreefactorize convert to lex order and back *)
Section Others.
Context (vo2 : vorder) (S2 : monos mono) (HP : lib_poly vo2 S2).
Variable msrt : list (var * Z) -> list (var * Z).
Variable srt : forall C : Type, Mono.poly C -> Mono.poly C.
Variable mcomp qcomp : poly Z -> poly Z -> outcome (option (poly Z)).
Variable rcomp : poly Z -> poly Z -> outcome (option (poly Z * poly Z)).
Variable zcomp : forall p (Hp : modulus p), Mono.poly (zpc p) -> Mono.poly (zpc p) -> outcome (option (Mono.poly (zpc p) * Mono.poly (zpc p))).
Variable ps : nat -> pmod.
Variable rnd : path -> nat -> Z.
Variable msrt2 : list (var * Z) -> list (var * Z).
Variable srt2 : poly Z -> poly Z.
Context (Env : gcd_env vless msrt srt mcomp qcomp rcomp zcomp ps).
Context (Hm2 : msort_ok vo2 msrt2) (Hs2 : sort_ok (mok vo2) (m_gt S2) srt2).
Notation npoly2 := (normal (mok vo2) (m_gt S2) Zc).
Notation gcd := (gcd_any vo2 (m_gt S2) msrt srt mcomp qcomp rcomp zcomp ps rnd msrt2 srt2).
Notation is_sqf := (is_squarefree_any msrt srt mcomp qcomp rcomp zcomp ps rnd).
Notation sqf := (squarefreefactorize_any vo2 (m_gt S2) msrt srt mcomp qcomp rcomp zcomp ps rnd msrt2 srt2).

Lemma to_lex_ok F : npoly2 F -> vfree Zc 0%N (graw sm F) ->
  npoly vless (to_lex msrt srt F) /\ vfree Zc 0%N (graw sm (to_lex msrt srt F)) /\ graw sm (to_lex msrt srt F) == graw sm F.
Proof.
  intros N V. destruct HP as [Hv HS]. apply lib_vorder_ok in Hv. assert (Hl : vorder_ok vless) by (apply lib_vorder_ok; constructor).
  destruct (convert_spec vo2 vless Hv Hl S2 (lexS vless) HS (or_introl eq_refl) Zc Zc HKz HKz (fun c : Z => c) eq_refl msrt (ge_msrt _ _ _ _ _ _ _ _ Env) (srt Z) (ge_srt _ _ _ _ _ _ _ _ Env Z) F N) as [A B].
  split; [exact A|]. split; [|exact B]. intros m Hm. apply V. intros X. apply Hm. exact (eq_trans (B m) X).
Qed.
Lemma from_lex_ok F : npoly vless F -> npoly2 (from_lex vo2 (m_gt S2) msrt2 srt2 F) /\ graw sm (from_lex vo2 (m_gt S2) msrt2 srt2 F) == graw sm F.
Proof.
  intros N. destruct HP as [Hv HS]. apply lib_vorder_ok in Hv. assert (Hl : vorder_ok vless) by (apply lib_vorder_ok; constructor).
  exact (convert_spec vless vo2 Hl Hv (lexS vless) S2 (or_introl eq_refl) HS Zc Zc HKz HKz (fun c : Z => c) eq_refl msrt2 Hm2 srt2 Hs2 F N).
Qed.

Theorem C27_gcd_other_orders : forall fuel pa F G R, npoly2 F -> npoly2 G -> vfree Zc 0%N (graw sm F) -> vfree Zc 0%N (graw sm G) ->
  gcd fuel pa F G = Ok R ->
  npoly2 R /\ greatest_common_divisor (graw sm F) (graw sm G) (graw sm R).
Proof.
  intros fuel pa F G R NF NG VF VG E. unfold gcd_any in E. destruct (poly_gcd _ _ _ _ _ _ _ _ _ _ _ _ _) as [P| | |] eqn:EP; try discriminate. cbn [obind] in E. injection E as <-.
  destruct (to_lex_ok F NF VF) as (A1 & A2 & A3), (to_lex_ok G NG VG) as (B1 & B2 & B3).
  destruct (C27_gcd vless (lv_less) _ _ _ _ _ _ _ _ Env _ _ _ _ P A1 B1 A2 B2 EP) as [NP GP].
  destruct (from_lex_ok P NP) as [NR ER]. split; [exact NR|]. 
  apply (is_gcd_proper Zc Zc_domain _ _ A3 _ _ B3 _ _ (symmetry ER)) in GP. exact GP.
Qed.
Theorem C30_is_squarefree_other_orders : forall fuel pa F b, npoly2 F -> vfree Zc 0%N (graw sm F) -> is_sqf fuel pa F = Ok b ->
  (b = true <-> squarefree_nonconstant (graw sm F)).
Proof.
  intros fuel pa F b N V E. destruct (to_lex_ok F N V) as (A1 & A2 & A3).
  rewrite (C30_is_squarefree vless lv_less _ _ _ _ _ _ _ _ Env _ _ _ b A1 A2 E). unfold squarefree_nonconstant.
  split; intros H h D; apply H; [apply (rdivides_proper Zc Zc_domain _ _ (reflexivity _) _ _ A3)|apply (rdivides_proper Zc Zc_domain _ _ (reflexivity _) _ _ A3)]; exact D.
Qed.
Theorem C30_squarefree_factorization_other_orders : forall fuel pa F r, npoly2 F -> vfree Zc 0%N (graw sm F) -> F <> [] -> sqf fuel pa F = Ok r ->
  product r == graw sm F /\
  exists c l, r = (c, 1%nat) :: l /\ (exists k, graw sm c == rconst k) /\ Forall (fun t => npoly2 (fst t) /\ (1 <= snd t)%nat) r /\
    Forall (fun t => squarefree (graw sm (fst t))) l /\
    ForallOrdPairs (fun t u => no_common_factor (graw sm (fst t)) (graw sm (fst u))) l.
Proof.
  intros fuel pa F r N V Ne E. unfold squarefreefactorize_any in E. destruct (squarefreefactorize _ _ _ _ _ _ _ _ _ _ _ _) as [r'| | |] eqn:EP; try discriminate. cbn [obind] in E.
  destruct (to_lex_ok F N V) as (A1 & A2 & A3).
  assert (Ne' : to_lex msrt srt F <> []).
  { intros X. apply Ne. destruct HP as [Hv HS]. apply lib_vorder_ok in Hv. assert (HS2 : monos_ok S2 (mok vo2) sm) by (destruct HS as [->| ->]; [apply lexS_ok|apply grlexS_ok]; exact Hv).
    apply (graw_nil_req S2 (mok vo2) sm Zc HS2 HKz F N).
    rewrite <- A3, X. reflexivity. }
  destruct (C30_squarefree_factorization vless lv_less _ _ _ _ _ _ _ _ Env _ _ _ r' A1 A2 Ne' EP) as (P1 & c & l & -> & (k & Ek) & Fr & Sq & Co).
  injection E as <-. set (f := fun t => (from_lex vo2 (m_gt S2) msrt2 srt2 (fst t), snd t)) in *.
  assert (FE : forall t, In t ((c, 1%nat) :: l) -> npoly2 (fst (f t)) /\ graw sm (fst (f t)) == graw sm (fst t)).
  { intros t Ht. rewrite Forall_forall in Fr. destruct (Fr t Ht) as [Nt _]. apply (from_lex_ok _ Nt). }
  split.
  - rewrite <- A3, <- P1. change (product (map f ((c, 1%nat) :: l)) == product ((c, 1%nat) :: l)).
    revert FE. generalize ((c, 1%nat) :: l). clear. intros L FE. induction L as [|t L IH]; [reflexivity|].
    destruct t as [q e]. cbn [map]. unfold f at 1. cbn [product fst snd]. rewrite IH by (intros u Hu; apply FE; right; exact Hu).
    destruct (FE (q, e) (or_introl eq_refl)) as [_ E]. cbn [f fst] in E. rewrite E. reflexivity.
  - exists (fst (f (c, 1%nat))), (map f l). split; [reflexivity|]. split; [exists k; rewrite (proj2 (FE _ (or_introl eq_refl))); exact Ek|].
    assert (FL : forall t, In t l -> graw sm (fst (f t)) == graw sm (fst t)) by (intros t Ht; apply FE; right; exact Ht).
    split; [|split].
    + change (Forall (fun t => npoly2 (fst t) /\ (1 <= snd t)%nat) (map f ((c, 1%nat) :: l))). rewrite Forall_map, Forall_forall. intros t Ht.
      split; [apply FE, Ht|]. rewrite Forall_forall in Fr. apply (Fr t Ht).
    + rewrite Forall_map, Forall_forall. rewrite Forall_forall in Sq. intros t Ht h D. apply (Sq t Ht).
      apply (rdivides_proper Zc Zc_domain _ _ (reflexivity _) _ _ (FL t Ht)). exact D.
    + clear - Co FL. induction Co as [|t l Ht Co IH]; cbn [map]; constructor.
      * rewrite Forall_map. rewrite Forall_forall in *. intros u Hu h D1 D2. apply (Ht u Hu).
        -- apply (rdivides_proper Zc Zc_domain _ _ (reflexivity _) _ _ (FL t (or_introl eq_refl))). exact D1.
        -- apply (rdivides_proper Zc Zc_domain _ _ (reflexivity _) _ _ (FL u (or_intror Hu))). exact D2.
      * apply IH. intros u Hu. apply FL. right. exact Hu.
Qed.
End Others.
Print Assumptions C27_gcd_other_orders.
Print Assumptions C30_is_squarefree_other_orders.
Print Assumptions C30_squarefree_factorization_other_orders.

(** ** The hypotheses are met: sorts, no packed shortcut, primes *)
Definition none2 {A} (_ _ : A) : outcome (option A) := Ok None.
Definition none3 {A} (_ _ : A) : outcome (option (A * A)) := Ok None.
Definition none4 (p : Z) (Hp : modulus p) (_ _ : Mono.poly (zpc p)) : outcome (option (Mono.poly (zpc p) * Mono.poly (zpc p))) := Ok None.
Lemma gcd_env_plain : forall vo, lib_vorder vo -> forall ps, (forall i, prime (pm (ps i))) ->
  gcd_env vo (isort vo) (fun C => isort (lex_gt vo)) none2 none2 none3 none4 ps.
Proof.
  intros vo HL ps Hp. pose proof (lib_vorder_ok vo HL) as Hvo. constructor; auto.
  - apply isort_ok. apply Hvo.
  - intros C. apply isort_ok. apply (ms_order (lexS vo) (mok vo) sm (lexS_ok vo Hvo)).
  - intros F G _ _. exact I.
  - intros F G _ _. exact I.
  - intros F G _ _. exact I.
  - intros p Mp _ x F G _ _ _ _. exact I.
Qed.
Lemma prime_check p : 1 < p -> forallb (fun n => Z.gcd (Z.of_nat n) p =? 1) (seq 1 (Z.to_nat p - 1)) = true -> prime p.
Proof.
  intros H1 H. constructor; [exact H1|]. intros n Hn. rewrite forallb_forall in H. apply Zgcd_1_rel_prime.
  specialize (H (Z.to_nat n)). rewrite Z2Nat.id in H by lia. apply Z.eqb_eq, H. apply in_seq. lia.
Qed.
Definition m101 : modulus 101. Proof. split; [discriminate|reflexivity]. Defined.
Definition m103 : modulus 103. Proof. split; [discriminate|reflexivity]. Defined.
Definition m107 : modulus 107. Proof. split; [discriminate|reflexivity]. Defined.
Definition ex_ps (i : nat) : pmod := match i with O => PMod 101 m101 | 1%nat => PMod 103 m103 | _ => PMod 107 m107 end.
Definition ex_rnd (_ : path) (i : nat) : Z := Z.of_nat i + 2.
Lemma ex_ps_prime i : prime (pm (ex_ps i)).
Proof. destruct i as [|[|i]]; cbn [ex_ps pm]; apply prime_check; try reflexivity; vm_compute; reflexivity. Qed.
Definition ex_env := gcd_env_plain vless lv_less ex_ps ex_ps_prime.
(** F = (x+y)(x+1), G = (x+y)(x-1): the gcd is x+y *)
Definition ex_F : poly Z := [(re_deg [(1%N,2)],1);(re_deg [(1%N,1);(2%N,1)],1);(re_deg[(1%N,1)],1);(re_deg[(2%N,1)],1)].
Definition ex_G : poly Z := [(re_deg [(1%N,2)],1);(re_deg [(1%N,1);(2%N,1)],1);(re_deg[(1%N,1)],-1);(re_deg[(2%N,1)],-1)].
Definition ex_6F : poly Z := map (fun t => (fst t, 6 * snd t)) ex_F.
(** H = x^2 y (x+1)^3 with content y *)
Definition ex_H : poly Z := map (fun t => (re_deg [(1%N, fst t); (2%N, 1)], snd t)) [(5, 1); (4, 3); (3, 3); (2, 1)].
Definition ex_gcd := poly_gcd vless (isort vless) (fun C => isort (lex_gt vless)) none2 none2 none3 none4 ex_ps ex_rnd.
Definition ex_cont := poly_cont vless (isort vless) (fun C => isort (lex_gt vless)) none2 none2 none3 none4 ex_ps ex_rnd.
Definition ex_pp := poly_pp vless (isort vless) (fun C => isort (lex_gt vless)) none2 none2 none3 none4 ex_ps ex_rnd.
Definition ex_sqf := squarefreefactorize vless (isort vless) (fun C => isort (lex_gt vless)) none2 none2 none3 none4 ex_ps ex_rnd.
Definition ex_issqf := is_squarefree vless (isort vless) (fun C => isort (lex_gt vless)) none2 none2 none3 none4 ex_ps ex_rnd.
Lemma ex_normal : npoly vless ex_F /\ npoly vless ex_G /\ npoly vless ex_H.
Proof. repeat split; repeat constructor; discriminate. Qed.
Lemma ex_vfree : vfree Zc 0%N (graw sm ex_F) /\ vfree Zc 0%N (graw sm ex_G) /\ vfree Zc 0%N (graw sm ex_H).
Proof.
  assert (Hl : vorder_ok vless) by (apply lib_vorder_ok; constructor). destruct ex_normal as (A & B & C).
  split; [|split]; apply (vfree_zexp vless Hl Zc Zc_domain _ 0%N); try assumption; repeat constructor.
Qed.
Example C27_example : exists R, ex_gcd 20 [] ex_F ex_G = Ok R /\ R = [(mono_var 1, 1); (mono_var 2, 1)] /\
  greatest_common_divisor (graw sm ex_F) (graw sm ex_G) (graw sm R).
Proof.
  exists [(mono_var 1, 1); (mono_var 2, 1)]. assert (E : ex_gcd 20 [] ex_F ex_G = Ok [(mono_var 1, 1); (mono_var 2, 1)]) by (vm_compute; reflexivity).
  split; [exact E|]. split; [reflexivity|].
  apply (C27_gcd vless lv_less _ _ _ _ _ _ _ _ ex_env 20 [] ex_F ex_G _ (proj1 ex_normal) (proj1 (proj2 ex_normal)) (proj1 ex_vfree) (proj1 (proj2 ex_vfree)) E).
Qed.
Example C29_example : ex_cont 20 [] ex_6F = Ok [(mono1, 6)] /\ ex_pp 20 [] ex_6F = Ok ex_F /\ ex_cont 20 [] ex_H = Ok [(mono_var 2, 1)].
Proof. vm_compute. auto. Qed.
Example C30_example : ex_sqf 20 [] ex_H = Ok [([(mono1, 1)], 1%nat); ([(mono_var 2, 1)], 1%nat); ([(mono_var 1, 1)], 2%nat); ([(mono_var 1, 1); (mono1, 1)], 3%nat)] /\
  ex_issqf 20 [] ex_H = Ok false /\ ex_issqf 20 [] ex_F = Ok true.
Proof. vm_compute. auto. Qed.
