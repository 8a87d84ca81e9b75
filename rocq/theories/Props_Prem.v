(** * C21, C22: pseudo-remainder and pseudo-quotient.

    [pseudo_div K v full G F Q R] (SpecOps.v): lc_v(F)^n * G = Q*F + R with deg_v R < deg_v F and
    n <= max(deg_v G - deg_v F + 1, 0), with equality when [full] (the parameter is_L, true by default).
    [compress] is the packed-monomial shortcut tried by operator* ; [comp_all] says that whenever it answers,
    the answer is the product (true of [no_compress]; see C13/C14 for the shortcut of the library). *)
From Verif Require Import Prelude Coef Spec SpecProofs SpecOps SpecOpsProofs OrderSpec PairVec PairVecProofs Mono MonoProofs Heap
  MonoStruct MonoStructProofs Library LibraryProofs Poly PolyMulProofs PolyOps MonoOpsProofs PolyOpsGen PolyOpsProofs
  PolyOps2Proofs ConvertProofs PolyOps3Proofs Prem PremProofs SortProofs QQ NumSpec QQProofs Props_Poly Props_Div Props_Ops.
Local Open Scope Z_scope.

Section Statements.
Context (vo : vorder) (S : monos mono) (HP : lib_poly vo S) (C : Type) (K : coefs C) (HD : domain_ok K).
Context (compress compress_v : poly C -> poly C -> outcome (option (poly C))) (v : var).
Context (HC : comp_all S (mok vo) sm K compress) (HCv : comp_all (lexS (vuniv v)) (mok (vuniv v)) sm K compress_v).
Context (ms1 ms2 : list (var * Z) -> list (var * Z)) (s1 s2 : poly C -> poly C).
Context (Hm1 : msort_ok (vuniv v) ms1) (Hm2 : msort_ok vo ms2).
Context (Hs1 : sort_ok (mok (vuniv v)) (lex_gt (vuniv v)) s1) (Hs2 : sort_ok (mok vo) (m_gt S) s2).

Theorem C21_prem_generic : forall G F full,
  normal (mok vo) (m_gt S) K G -> normal (mok vo) (m_gt S) K F -> F <> [] -> (full = true -> p_degree G v < 2 ^ 63) ->
  exists R, terminates_with (fun fuel => prem_gen K vo (m_gt S) compress_v ms1 ms2 s1 s2 fuel G F v full) R /\
    normal (mok vo) (m_gt S) K R /\ exists Q, pseudo_div K v full (graw sm G) (graw sm F) Q (graw sm R).
Proof.
  intros G F full NG NF Fne Hb. destruct HP as [Hv HS]. apply lib_vorder_ok in Hv. assert (Hu : vorder_ok (vuniv v)) by (apply lib_vorder_ok; constructor).
  apply (prem_gen_ok vo Hv S HS K (domain_ring K HD) HD v compress_v Hu HCv ms1 ms2 s1 s2 Hm1 Hm2 Hs1 Hs2 G F full NG NF Fne Hb).
Qed.
Theorem C21_prem_lex : S = lexS vo -> forall G F full,
  normal (mok vo) (m_gt S) K G -> normal (mok vo) (m_gt S) K F -> F <> [] -> (full = true -> p_degree G v < 2 ^ 63) ->
  exists R, terminates_with (fun fuel => prem_lex K vo compress compress_v ms1 ms2 s1 s2 fuel G F v full) R /\
    normal (mok vo) (m_gt S) K R /\ exists Q, pseudo_div K v full (graw sm G) (graw sm F) Q (graw sm R).
Proof.
  intros EL G F full NG NF Fne Hb. destruct HP as [Hv HS]. apply lib_vorder_ok in Hv. assert (Hu : vorder_ok (vuniv v)) by (apply lib_vorder_ok; constructor).
  apply (prem_lex_ok vo Hv S HS K (domain_ring K HD) HD v compress compress_v Hu HC HCv ms1 ms2 s1 s2 Hm1 Hm2 Hs1 Hs2 EL G F full NG NF Fne Hb).
Qed.
Theorem C22_pquo_generic : forall G F full,
  normal (mok vo) (m_gt S) K G -> normal (mok vo) (m_gt S) K F -> F <> [] -> p_degree G v < 2 ^ 63 ->
  exists Q R, terminates_with (fun fuel => pquo_gen K vo S compress compress_v ms1 ms2 s1 s2 fuel G F v full) (Q, R) /\
    normal (mok vo) (m_gt S) K Q /\ normal (mok vo) (m_gt S) K R /\ pseudo_div K v full (graw sm G) (graw sm F) (graw sm Q) (graw sm R).
Proof.
  intros G F full NG NF Fne Hb. destruct HP as [Hv HS]. apply lib_vorder_ok in Hv. assert (Hu : vorder_ok (vuniv v)) by (apply lib_vorder_ok; constructor).
  apply (pquo_gen_ok vo Hv S HS K (domain_ring K HD) HD v compress compress_v Hu HC HCv ms1 ms2 s1 s2 Hm1 Hm2 Hs1 Hs2 G F full NG NF Fne Hb).
Qed.
Theorem C22_pquo_lex : S = lexS vo -> forall G F full,
  normal (mok vo) (m_gt S) K G -> normal (mok vo) (m_gt S) K F -> F <> [] -> p_degree G v < 2 ^ 63 ->
  exists Q R, terminates_with (fun fuel => pquo_lex K vo compress compress_v ms1 ms2 s1 s2 fuel G F v full) (Q, R) /\
    normal (mok vo) (m_gt S) K Q /\ normal (mok vo) (m_gt S) K R /\ pseudo_div K v full (graw sm G) (graw sm F) (graw sm Q) (graw sm R).
Proof.
  intros EL G F full NG NF Fne Hb. destruct HP as [Hv HS]. apply lib_vorder_ok in Hv. assert (Hu : vorder_ok (vuniv v)) by (apply lib_vorder_ok; constructor).
  apply (pquo_lex_ok vo Hv S HS K (domain_ring K HD) HD v compress compress_v Hu HC HCv ms1 ms2 s1 s2 Hm1 Hm2 Hs1 Hs2 EL G F full NG NF Fne Hb).
Qed.
End Statements.
Print Assumptions C21_prem_generic.
Print Assumptions C21_prem_lex.
Print Assumptions C22_pquo_generic.
Print Assumptions C22_pquo_lex.

(** The remainder pquo stores is the one prem returns. *)
Section Same.
Context {C : Type} (K : coefs C) (compress compress_v : poly C -> poly C -> outcome (option (poly C))).
Lemma loop_same (vo : vorder) fuel v F0 f F_ : forall Ot Q d r,
  prem_loop K vo compress fuel v F0 f F_ Ot (Some Q) d = Ok r ->
  prem_loop K vo compress fuel v F0 f F_ Ot None d = Ok (fst (fst r), None, snd r).
Proof.
  induction fuel as [|fuel IH]; intros Ot Q d r E; cbn [prem_loop] in *; destruct (N.eqb (first_var Ot) v && (first_deg Ot >=? f)); try discriminate;
    try (injection E as <-; reflexivity).
  destruct (prem_step K vo compress v F0 f F_ Ot) as [[O' G1]| | |]; try discriminate. cbn [obind] in *.
  destruct (p_mul (lexS vo) K compress F0 Q) as [t| | |]; try discriminate. cbn [obind] in *. apply (IH _ _ _ _ E).
Qed.
End Same.
Lemma core_same {C} (K : coefs C) compress (vo : vorder) fuel G F v full Q R :
  pquo_core K vo compress fuel G F v full = Ok (Q, R) -> prem_core K vo compress fuel G F v full = Ok R.
Proof.
  unfold pquo_core, prem_core. destruct F as [|t r]; [discriminate|]. destruct (is_number (t :: r)); cbn [orb].
  { destruct (negb _); [|intros [= <- <-]; reflexivity]. destruct (prem_factor K vo compress (t :: r) _) as [P| | |]; try discriminate. cbn [obind].
    destruct (p_mul (lexS vo) K compress G P) as [Q'| | |]; try discriminate. intros [= <- <-]. reflexivity. }
  destruct (negb (N.eqb (first_var (t :: r)) v)).
  { destruct (negb _); [|intros [= <- <-]; reflexivity]. destruct (prem_factor K vo compress (t :: r) _) as [P| | |]; try discriminate. cbn [obind].
    destruct (p_mul (lexS vo) K compress G P) as [Q'| | |]; try discriminate. intros [= <- <-]. reflexivity. }
  destruct (negb (N.eqb (first_var G) v) || (first_deg G <? first_deg (t :: r))); [intros [= <- <-]; reflexivity|].
  destruct (split_lead v (first_deg (t :: r)) (t :: r)) as [FL F_]. destruct (prem_step K vo compress v _ _ F_ G) as [[R1 Q1]| | |]; try discriminate. cbn [obind].
  destruct (prem_loop K vo compress fuel v (set_deg vo v 0 FL) (first_deg (t :: r)) F_ R1 (Some Q1) (first_deg G - first_deg (t :: r))) as [[[Ot Qo] d]| | |] eqn:E; try discriminate.
  rewrite (loop_same K compress vo _ _ _ _ _ _ _ _ _ E). cbn [obind fst snd].
  destruct (full && (d >? 0)); [|intros [= <- <-]; reflexivity].
  destruct (prem_factor K vo compress (set_deg vo v 0 FL) d) as [P| | |]; try discriminate. cbn [obind].
  destruct (p_mul (lexS vo) K compress Ot P) as [R'| | |]; try discriminate. cbn [obind].
  destruct (p_mul (lexS vo) K compress _ P) as [Q'| | |]; try discriminate. cbn [obind]. intros [= <- <-]. reflexivity.
Qed.
Theorem C22_same_remainder_generic : forall C (K : coefs C) vo S compress compress_v ms1 ms2 s1 s2 fuel G F v full Q R,
  pquo_gen K vo S compress compress_v ms1 ms2 s1 s2 fuel G F v full = Ok (Q, R) ->
  prem_gen K vo (m_gt S) compress_v ms1 ms2 s1 s2 fuel G F v full = Ok R.
Proof.
  intros C K vo S compress compress_v ms1 ms2 s1 s2 fuel G F v full Q R. unfold pquo_gen, prem_gen. destruct F as [|t r]; [discriminate|].
  destruct (is_number (t :: r)).
  - unfold pquo_number. destruct (negb _); [|intros [= <- <-]; reflexivity]. destruct (p_pow S K compress 64 _ _ _) as [P| | |]; try discriminate. cbn [obind].
    destruct (p_mul S K compress G P) as [Q'| | |]; try discriminate. intros [= <- <-]. reflexivity.
  - unfold pquo_conv. destruct (pquo_core K (vuniv v) compress_v fuel _ _ v full) as [[Q1 R1]| | |] eqn:E; try discriminate. cbn [obind].
    intros [= <- <-]. apply core_same in E. rewrite E. reflexivity.
Qed.
Print Assumptions C22_same_remainder_generic.
Theorem C22_same_remainder_lex : forall C (K : coefs C) vo compress compress_v ms1 ms2 s1 s2 fuel G F v full Q R,
  pquo_lex K vo compress compress_v ms1 ms2 s1 s2 fuel G F v full = Ok (Q, R) ->
  prem_lex K vo compress compress_v ms1 ms2 s1 s2 fuel G F v full = Ok R.
Proof.
  intros C K vo compress compress_v ms1 ms2 s1 s2 fuel G F v full Q R. unfold pquo_lex, prem_lex. destruct F as [|t r]; [discriminate|].
  destruct (is_number (t :: r)) eqn:EN.
  - unfold pquo_number. destruct (negb _); [|intros [= <- <-]; reflexivity]. destruct (p_pow (lexS vo) K compress 64 _ _ _) as [P| | |]; try discriminate. cbn [obind].
    destruct (p_mul (lexS vo) K compress G P) as [Q'| | |]; try discriminate. intros [= <- <-]. reflexivity.
  - destruct (lex_direct vo G (t :: r) v); [apply core_same|]. unfold pquo_conv, prem_gen. rewrite EN.
    destruct (pquo_core K (vuniv v) compress_v fuel _ _ v full) as [[Q1 R1]| | |] eqn:E; try discriminate. cbn [obind].
    intros [= <- <-]. apply core_same in E. rewrite E. reflexivity.
Qed.
Print Assumptions C22_same_remainder_lex.

(** Examples: G = x^2 + 1, F = 2x + y over the integers: 4*G = (2x - y)*F + (y^2 + 4). *)
Definition ex_G : poly Z := [(re_deg [(1%N, 2)], 1); (mono1, 1)].
Definition ex_F : poly Z := [(re_deg [(1%N, 1)], 2); (re_deg [(2%N, 1)], 1)].
Example C21_example : prem_lex Zc vless no_compress no_compress (isort (vuniv 1%N)) (isort vless) (isort (lex_gt (vuniv 1%N))) (isort (lex_gt vless)) 5 ex_G ex_F 1%N true
   = Ok [(re_deg [(2%N, 2)], 1); (mono1, 4)] /\
  normal (mok vless) (m_gt (lexS vless)) Zc ex_G /\ normal (mok vless) (m_gt (lexS vless)) Zc ex_F.
Proof. split; [vm_compute; reflexivity|]. split; repeat constructor; discriminate. Qed.
Example C22_example : pquo_lex Zc vless no_compress no_compress (isort (vuniv 1%N)) (isort vless) (isort (lex_gt (vuniv 1%N))) (isort (lex_gt vless)) 5 ex_G ex_F 1%N true
   = Ok ([(re_deg [(1%N, 1)], 2); (re_deg [(2%N, 1)], -1)], [(re_deg [(2%N, 2)], 1); (mono1, 4)]) /\
  (* with respect to the second variable, through a conversion: y^2 by 2x+y leaves 4x^2 *)
  pquo_lex Zc vless no_compress no_compress (isort (vuniv 2%N)) (isort vless) (isort (lex_gt (vuniv 2%N))) (isort (lex_gt vless)) 5
    [(re_deg [(2%N, 2)], 1)] ex_F 2%N true = Ok ([(re_deg [(1%N, 1)], -2); (re_deg [(2%N, 1)], 1)], [(re_deg [(1%N, 2)], 4)]).
Proof. split; vm_compute; reflexivity. Qed.
