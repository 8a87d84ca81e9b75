(** * C28: the extended gcd, polynomial_GCD(F, G, s, t).

    [graw usm F] ([graw sm F]) is the polynomial denoted by an upolynomial (a polynomial_<ZZ, lex>);
    [terminates_with f a]: for every large enough bound on the work, [f] returns [a] without exception or
    undefined behaviour.  [srt], [compress], ... are any sort and any exponent packing that meet their contracts. *)
From Coq Require Import Ring_theory Ring Setoid Morphisms Znumtheory.
From Verif Require Import Prelude Coef Spec SpecProofs SpecOps SpecOpsProofs GcdDom GcdPoly GcdMath OrderSpec PairVec PairVecProofs
  Mono MonoProofs MonoStruct MonoStructProofs Library LibraryProofs Heap Poly PolyMulProofs Div PolyOps PolyOpsGen Prem Zp NumSpec ZpProofs Gcd GcdProofs UGcd UGcdBase UGcdProofs UGcdMod
  ExtGcd ExtGcdProofs ExtGcdZZ ExtGcdLex SortProofs DivExact PolyDivProofs Props_Div Props_Gcd Props_UGcd.
Local Open Scope Z_scope.
Local Notation unormal K := (normal uok (m_gt uniS) K).
Local Notation msort_ok vo ms := (sort_ok (fun _ : var => True) vo ms).

(** Z/p: r is monic, r = s*F + t*G, r divides F and G, hence r is the monic greatest common divisor. *)
Theorem C28_ext_gcd_mod_p : forall p (Hp : modulus p), prime p -> forall srt F G,
  let K := Zpc p Hp in
  unormal K F -> unormal K G -> F <> [] -> G <> [] ->
  exists r s t, terminates_with (fun fuel => uzp_ext p Hp srt fuel F G) (r, s, t) /\
    unormal K r /\ unormal K s /\ unormal K t /\ (exists m l, r = (m, c1 K) :: l) /\
    req K (graw usm r) (radd (rmul K (graw usm s) (graw usm F)) (rmul K (graw usm t) (graw usm G))) /\
    rdivides K (graw usm r) (graw usm F) /\ rdivides K (graw usm r) (graw usm G) /\
    forall d, rdivides K d (graw usm F) -> rdivides K d (graw usm G) -> rdivides K d (graw usm r).
Proof.
  intros p Hp Pr srt F G K NF NG Fn Gn. destruct (uzp_ext_ok p Hp Pr srt F G NF NG Fn Gn) as (r & s & t & T & A & B & C & D & E & X & Y).
  exists r, s, t. repeat (split; [assumption|]). intros d Dx Dy. pose proof (field_domain _ (Zpc_field p Hp Pr)) as HD.
  apply (rdivides_proper K HD _ _ (reflexivity _) _ _ E). apply (rd_add K HD); apply (rd_mull K HD); assumption.
Qed.

(** Univariate over ZZ: Bezout's identity with a positive leading coefficient, and r is the gcd *up to integer
    factors*: it divides an integer multiple of F and of G, and every common divisor of F and G divides it. *)
Theorem C28_bezout_zz_univariate : forall srt F G, unormal Zc F -> unormal Zc G -> F <> [] -> G <> [] ->
  exists r s t, terminates_with (fun fuel => uzz_ext srt fuel F G) (r, s, t) /\
    unormal Zc r /\ unormal Zc s /\ unormal Zc t /\ (exists m c l, r = (m, c) :: l /\ 0 < c) /\
    req Zc (graw usm r) (radd (rmul Zc (graw usm s) (graw usm F)) (rmul Zc (graw usm t) (graw usm G))) /\
    (exists c, c <> 0 /\ rdivides Zc (graw usm r) (rmul Zc (rconst c) (graw usm F))) /\
    (exists c, c <> 0 /\ rdivides Zc (graw usm r) (rmul Zc (rconst c) (graw usm G))) /\
    forall d, rdivides Zc d (graw usm F) -> rdivides Zc d (graw usm G) -> rdivides Zc d (graw usm r).
Proof.
  intros srt F G NF NG Fn Gn. destruct (uzz_ext_ok srt F G NF NG Fn Gn) as (r & s & t & T & A & B & C & D & E & X & Y).
  exists r, s, t. repeat (split; [assumption|]). intros d Dx Dy.
  apply (rdivides_proper Zc Zc_domain _ _ (reflexivity _) _ _ E). apply (rd_add Zc Zc_domain); apply (rd_mull Zc Zc_domain); assumption.
Qed.

(** Multivariate over ZZ in a lex order: Bezout's identity; r divides a multiple of F, and of G, by a nonzero
    polynomial free of the main variable v (in which the Euclidean sequence is computed); common divisors of F and G divide r. *)
Theorem C28_bezout_zz_multivariate : forall vo, lib_vorder vo -> forall compress compress_v ms1 ms2 s1 s2,
  comp_all (lexS vo) (mok vo) sm Zc compress -> (forall v, comp_all (lexS (vuniv v)) (mok (vuniv v)) sm Zc (compress_v v)) ->
  (forall v, msort_ok (vuniv v) (ms1 v)) -> msort_ok vo ms2 ->
  (forall v, sort_ok (mok (vuniv v)) (lex_gt (vuniv v)) (s1 v)) -> sort_ok (mok vo) (lex_gt vo) s2 ->
  forall F G, normal (mok vo) (m_gt (lexS vo)) Zc F -> normal (mok vo) (m_gt (lexS vo)) Zc G ->
  vfree Zc 0%N (graw sm F) -> vfree Zc 0%N (graw sm G) -> (forall v, p_degree F v < 2 ^ 63) -> (forall v, p_degree G v < 2 ^ 63) ->
  exists r s t, terminates_with (fun fuel => mext vo compress compress_v ms1 ms2 s1 s2 fuel F G) (r, s, t) /\
    normal (mok vo) (m_gt (lexS vo)) Zc r /\ normal (mok vo) (m_gt (lexS vo)) Zc s /\ normal (mok vo) (m_gt (lexS vo)) Zc t /\
    req Zc (graw sm r) (radd (rmul Zc (graw sm s) (graw sm F)) (rmul Zc (graw sm t) (graw sm G))) /\
    (F <> [] \/ G <> [] -> r <> []) /\
    (exists v, (F = [] \/ G = [] \/ v = ext_var vo F G) /\
       (exists c, ~ req Zc c r0 /\ vfree Zc v c /\ rdivides Zc (graw sm r) (rmul Zc c (graw sm F))) /\
       (exists c, ~ req Zc c r0 /\ vfree Zc v c /\ rdivides Zc (graw sm r) (rmul Zc c (graw sm G)))) /\
    forall d, rdivides Zc d (graw sm F) -> rdivides Zc d (graw sm G) -> rdivides Zc d (graw sm r).
Proof.
  intros vo LV compress compress_v ms1 ms2 s1 s2 HC HCv Hm1 Hm2 Hs1 Hs2 F G NF NG VF VG BF BG.
  destruct (mext_ok vo (lib_vorder_ok vo LV) compress compress_v ms1 ms2 s1 s2 HC HCv Hm1 Hm2 Hs1 Hs2 F G NF NG VF VG BF BG) as (r & s & t & T & A & B & C & E & X & Y).
  exists r, s, t. repeat (split; [assumption|]). intros d Dx Dy.
  apply (rdivides_proper Zc Zc_domain _ _ (reflexivity _) _ _ E). apply (rd_add Zc Zc_domain); apply (rd_mull Zc Zc_domain); assumption.
Qed.

(** Over ZZ the result named "GCD" is not a gcd in general: (x, 2) gives r = 2, which does not divide x; and for
    two variables (x, y) gives r = x, which does not divide y. *)
Theorem C28_zz_gcd_univariate_refuted : forall srt,
  exists F G r s t, unormal Zc F /\ unormal Zc G /\ terminates_with (fun fuel => uzz_ext srt fuel F G) (r, s, t) /\
    ~ rdivides Zc (graw usm r) (graw usm F).
Proof.
  intros srt. exists [(1, 1)], [(0, 2)], [(0, 2)], [], [(0, 1)]. split; [repeat split; repeat constructor; discriminate|]. split; [repeat split; repeat constructor; discriminate|].
  split.
  { destruct (C28_bezout_zz_univariate srt [(1, 1)] [(0, 2)]) as (r & s & t & T & _); try discriminate; try (repeat split; repeat constructor; discriminate).
    destruct T as [n T]. exists (n + 9)%nat. intros fuel Hf. rewrite (T fuel ltac:(lia)), <- (T (n + 9)%nat ltac:(lia)).
    replace (n + 9)%nat with (9 + n)%nat by lia. vm_compute. reflexivity. }
  intros [q E]. specialize (E [(0%N, 1%N)]).
  assert (X : forall q : rpoly Z, exists k, coef Zc (rmul Zc q (graw usm [(0, 2)])) [(0%N, 1%N)] = 2 * k).
  { clear q E. intros q. induction q as [|[mq cq] q IH]; [exists 0; reflexivity|]. destruct IH as [k Ek].
    change (rmul Zc ((mq, cq) :: q) (graw usm [(0, 2)])) with ((mq ++ usm 0, cq * 2) :: rmul Zc q (graw usm [(0, 2)])). cbn [coef].
    destruct (meqb _ _); [exists (cq + k); cbn [cadd Zc]; lia|exists k; exact Ek]. }
  destruct (X q) as [k Ek]. assert (Y : coef Zc (rmul Zc (graw usm [(0, 2)]) q) [(0%N, 1%N)] = 2 * k).
  { rewrite <- Ek. apply (rmul_comm Zc (domain_ring _ Zc_domain)). }
  assert (E1 : coef Zc (graw usm [(1, 1)]) [(0%N, 1%N)] = 1) by reflexivity. lia.
Qed.

Local Notation ext_ex := (mext vless no_compress (fun _ => no_compress) (fun v => isort (vuniv v)) (isort vless)
  (fun v => isort (lex_gt (vuniv v))) (isort (lex_gt vless))).
Definition ext_x : poly Z := [(re_deg [(1%N, 1)], 1)].
Definition ext_y : poly Z := [(re_deg [(2%N, 1)], 1)].
Theorem C28_zz_gcd_multivariate_refuted :
  ext_ex 9%nat ext_x ext_y = Ok (ext_x, [(mono1, 1)], []) /\ ~ rdivides Zc (graw sm ext_x) (graw sm ext_y).
Proof.
  split; [vm_compute; reflexivity|]. intros [q E].
  assert (R : reval Zc (fun v => if N.eqb v 1 then 0 else 1) (graw sm ext_y) = reval Zc (fun v => if N.eqb v 1 then 0 else 1) (rmul Zc (graw sm ext_x) q)).
  { apply (reval_proper Zc (domain_ring _ Zc_domain)). rewrite E. first [reflexivity | apply (rmul_comm Zc (domain_ring _ Zc_domain))]. }
  rewrite (reval_mul Zc (domain_ring _ Zc_domain)) in R.
  change (reval Zc (fun v => if N.eqb v 1 then 0 else 1) (graw sm ext_x)) with 0 in R.
  change (reval Zc (fun v => if N.eqb v 1 then 0 else 1) (graw sm ext_y)) with 1 in R. cbn [cmul Zc] in R. lia.
Qed.

(** C18, what holds in any domain: whenever F = H*G + R for some H and some R no term of which is divisible by the
    leading monomial of G, division with remainder terminates with exactly H and R (so the identity fails only when
    no such H and R exist). *)
Theorem C18_complete_partial : forall M (S : monos M) ok sm C (K : coefs C), lib_monos S ok sm -> domain_ok K -> quorem_ok K ->
  forall F H R g gs, normal ok (m_gt S) K F -> normal ok (m_gt S) K (g :: gs) -> normal ok (m_gt S) K H -> normal ok (m_gt S) K R ->
  req K (graw sm F) (radd (rmul K (graw sm H) (graw sm (g :: gs))) (graw sm R)) -> irreducible_by sm g R ->
  terminates_with (poly_divrem S K F (g :: gs)) (H, R).
Proof.
  intros M S ok sm C K HS HD HQ F H R g gs NF NG NH NR E IR. apply lib_monos_ok in HS.
  exact (p_div_rem_exact S ok sm K HS (domain_ring K HD) HD HQ F H R g gs NF NG NH NR IR E).
Qed.
Print Assumptions C18_complete_partial.
Example C18_complete_example : poly_divrem uniS Zc [(3, 2); (1, 5); (0, 1)] [(2, 2); (0, 3)] 20 = Ok ([(1, 1)], [(1, 2); (0, 1)]).
Proof. vm_compute. reflexivity. Qed.

Print Assumptions C28_ext_gcd_mod_p.
Print Assumptions C28_bezout_zz_univariate.
Print Assumptions C28_bezout_zz_multivariate.
Print Assumptions C28_zz_gcd_univariate_refuted.
Print Assumptions C28_zz_gcd_multivariate_refuted.

(** Examples: gcd((x+1)(x^2+2), (x+1)(x-3)) mod 101 = x+1 = s*F + t*G with s, t as computed; and over ZZ with y as a
    parameter: (x + y, x - y) gives 2y = (x + y) - (x - y) up to sign. *)
Definition exF : upz := [(3, 1); (2, 1); (1, 2); (0, 2)].
Definition exG : upz := [(2, 1); (1, -2); (0, -3)].
Example C28_example :
  let F := p_mod (Zpc 101 m101) (zpc_of 101 m101) exF in let G := p_mod (Zpc 101 m101) (zpc_of 101 m101) exG in
  unormal (Zpc 101 m101) F /\ unormal (Zpc 101 m101) G /\ F <> [] /\ G <> [] /\
  exists r s t, uzp_ext 101 m101 (fun l => l) 20 F G = Ok (r, s, t) /\ map (fun t => (fst t, proj1_sig (snd t))) r = [(1, 1); (0, 1)].
Proof.
  intros F G. assert (P : prime 101) by exact (ex_ps_prime 0).
  assert (A : unormal Zc exF /\ unormal Zc exG) by (split; repeat split; repeat constructor; discriminate). destruct A as [A B].
  split; [apply (upmod_ok 101 m101 P exF A)|]. split; [apply (upmod_ok 101 m101 P exG B)|]. split; [vm_compute; discriminate|]. split; [vm_compute; discriminate|].
  destruct (uzp_ext 101 m101 (fun l => l) 20 F G) as [[[r s] t]| | |] eqn:E; vm_compute in E; try discriminate. injection E as <- <- <-.
  do 3 eexists. split; [reflexivity|]. vm_compute. reflexivity.
Qed.
Example C28_multivariate_example :
  exists r s t, ext_ex 9%nat [(re_deg [(1%N, 1)], 1); (re_deg [(2%N, 1)], 1)] [(re_deg [(1%N, 1)], 1); (re_deg [(2%N, 1)], -1)] = Ok (r, s, t) /\
    r = [(re_deg [(2%N, 1)], 2)].
Proof. do 3 eexists. split; vm_compute; reflexivity. Qed.
