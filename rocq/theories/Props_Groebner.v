(** * C31-C34: S-polynomials, normal forms, Groebner bases, ideals.

    [lib_poly vo S] (Props_Ops.v) ranges over the variable orders of the library and the two monomial orders;
    [field_ok K] over QQ and Zp (C05-C10).  Leading monomials, generated ideals and reducedness are defined in
    GroebnerSpec.v.  [psrt] stands for std::sort on critical pairs: any permutation is allowed. *)
From Coq Require Import Sorting.Permutation.
From Verif Require Import Prelude Coef Spec SpecProofs SpecOps SpecOpsProofs OrderSpec PairVec PairVecProofs Mono MonoProofs
  MonoStruct MonoStructProofs Library LibraryProofs Poly PolyMulProofs PolyOps PolyOpsGen QQ NumSpec QQProofs ConvertQQ SortProofs
  Groebner MonoGcdProofs GroebnerProofs BuchProofs BuchLoop GroebnerFinal GroebnerZZ GroebnerSpec GroebnerZZProofs IdealProofs Props_Poly Props_Div Props_Ops.
Local Open Scope Z_scope.

Lemma gok_all {C} (K : coefs C) vo S (G : list (poly C)) :
  Forall (normal (mok vo) (m_gt S) K) G -> Forall (fun g => g <> []) G -> Forall (gok K vo S) G.
Proof. intros A B. rewrite Forall_forall in *. intros g Hg. split; auto. Qed.
Lemma irred_reduced {C} (G : list (poly C)) r : irred G r -> reduced_wrt G r.
Proof.
  intros H t g m Ht Hg (c & r' & ->). unfold irred in H. rewrite Forall_forall in H. exact (H t Ht _ Hg).
Qed.

Section Field.
Context (vo : vorder) (S : monos mono) (HP : lib_poly vo S) (C : Type) (K : coefs C) (HF : field_ok K).
Let Hv : vorder_ok vo := lib_vorder_ok vo (proj1 HP).
Let HS := proj2 HP.
Let HK : ring_ok K := domain_ring K (field_domain K HF).
Notation norm := (normal (mok vo) (m_gt S) K).

(** C31.  normal_form(f, G) terminates, f - r is in the ideal of G, and no monomial of r is a multiple of a leading
    monomial of G; every monomial bound of f bounds r. *)
Theorem C31_normal_form : forall f G, norm f -> Forall norm G -> Forall (fun g => g <> []) G ->
  exists r, terminates_with (fun fuel => normal_form K (cquo K) S fuel f G) r /\ norm r /\
    gen_ideal K G (rsub K (graw sm f) (graw sm r)) /\ reduced_wrt G r /\
    (forall L, mok vo L -> Forall (fun t => m_gt S L (fst t) = true) f -> Forall (fun t => m_gt S L (fst t) = true) r).
Proof.
  intros f G Nf NG GN. destruct (nf_final K HK HF vo Hv S HS G f (gok_all K vo S G NG GN) Nf) as (r & n0 & E & A & B & D & P).
  exists r. split; [exists n0; exact E|]. split; [exact A|]. split; [exact D|]. split; [apply irred_reduced, B|exact P].
Qed.

(** C33.  s_polynomial(f, g) = f*mf/lc(f) - g*mg/lc(g), where mf*lm(f) = mg*lm(g) is the lcm of the leading
    monomials, and every monomial of the result is smaller than that lcm. *)
Theorem C33_s_polynomial : forall f g, norm f -> norm g -> f <> [] -> g <> [] ->
  exists h L mf mg lf lg af ag,
    s_poly K (cquo K) vo S f g = Ok h /\ norm h /\
    (exists r, f = (lf, af) :: r) /\ (exists r, g = (lg, ag) :: r) /\
    mok vo L /\ (forall v, exp (sm L) v = N.max (exp (sm lf) v) (exp (sm lg) v)) /\
    meq (sm mf ++ sm lf) (sm L) /\ meq (sm mg ++ sm lg) (sm L) /\
    req K (graw sm h) (rsub K (rmul K [(sm mf, cquo K (c1 K) af)] (graw sm f)) (rmul K [(sm mg, cquo K (c1 K) ag)] (graw sm g))) /\
    Forall (fun t => m_gt S L (fst t) = true) h.
Proof.
  intros f g Nf Ng Fn Gn. destruct f as [|tf f]; [congruence|]. destruct g as [|tg g]; [congruence|].
  assert (Gf : gok K vo S (tf :: f)) by (split; assumption). assert (Gg : gok K vo S (tg :: g)) by (split; assumption).
  destruct (sup_all [tf :: f; tg :: g]) as [vs SV].
  destruct (s_poly_ok K HK HF vo Hv S HS vs _ _ Gf Gg (Forall_inv SV) (Forall_inv (Forall_inv_tail SV))) as (h & E & Nh & _ & PM & RH).
  assert (HM : monos_ok S (mok vo) sm) by (apply lib_monos_ok, lib_poly_monos; exact HP).
  assert (Of : mok vo (fst tf)) by apply (lm_ok K vo S _ Gf). assert (Og : mok vo (fst tg)) by apply (lm_ok K vo S _ Gg).
  destruct (lcm_dvd vo Hv (fst tf) (fst tg) Of Og) as (OL & Df & Dg & _). cbn [lm lc] in *. set (L := mono_lcm vo (fst tf) (fst tg)) in *.
  destruct (qt_spec vo Hv S HS L (fst tf) OL Of Df) as [Omf Emf]. destruct (qt_spec vo Hv S HS L (fst tg) OL Og Dg) as [Omg Emg].
  exists h, L, (qt S L (fst tf)), (qt S L (fst tg)), (fst tf), (fst tg), (snd tf), (snd tg).
  split; [exact E|]. split; [exact Nh|]. split; [exists f; destruct tf; reflexivity|]. split; [exists g; destruct tg; reflexivity|]. split; [exact OL|].
  split; [|split; [|split; [|split; [|exact PM]]]].
  - intros v. destruct (mono_lcm_spec vo Hv (fst tf) (fst tg) Of Og) as [_ Y]. fold L in Y. rewrite !(exp_sm_mok vo) by assumption. rewrite Y.
    pose proof (zexp_nonneg vo _ v Of). pose proof (zexp_nonneg vo _ v Og). lia.
  - intros v. rewrite <- (ms_mul S _ _ HM _ _ Omf Of v). rewrite Emf. reflexivity.
  - intros v. rewrite <- (ms_mul S _ _ HM _ _ Omg Og v). rewrite Emg. reflexivity.
  - rewrite RH. unfold T, rmono.
    assert (X : forall c m p, req K (rmul K (rconst c) (rmul K [(m, c1 K)] p)) (rmul K [(m, c)] p)).
    { intros c m p. etransitivity; [apply (Rmul_assoc (rring K HK))|]. apply (rmul_proper K HK); [|reflexivity]. unfold rmul, rconst. cbn [flat_map map app fst snd].
      apply (req_single K); [reflexivity|]. rewrite (Rmul_comm (ring_laws K HK)). apply (Rmul_1_l (ring_laws K HK)). }
    unfold rsub. apply (radd_proper K HK); [apply X|]. apply (ropp_proper K HK). apply X.
Qed.
Theorem C33_in_ideal : forall f g h, norm f -> norm g -> f <> [] -> g <> [] -> s_poly K (cquo K) vo S f g = Ok h -> gen_ideal K [f; g] (graw sm h).
Proof.
  intros f g h Nf Ng Fn Gn E. destruct (C33_s_polynomial f g Nf Ng Fn Gn) as (h' & L & mf & mg & lf & lg & af & ag & E' & _ & _ & _ & _ & _ & _ & _ & R & _).
  rewrite E in E'. injection E' as <-. unfold gen_ideal. eapply ideal_eq; [symmetry; exact R|].
  apply (ideal_sub K HK); apply ideal_mul, ideal_gen; cbn; auto.
Qed.

(** C34.  groebner_basis(F) terminates; its elements are monic, in normal form, generate the ideal of F; no monomial
    of an element is a multiple of another leading monomial; every S-polynomial of two elements reduces to 0; and a
    polynomial is in the ideal of F exactly when normal_form reduces it to 0. *)
Theorem C34_groebner_basis : forall psrt, (forall l, Permutation l (psrt l)) -> forall F, Forall norm F ->
  exists G, terminates_with (fun fuel => buchberger K (cquo K) vo S psrt fuel F) G /\
    Forall norm G /\ Forall (monic_poly K) G /\ interreduced G /\
    (forall p, gen_ideal K F p <-> gen_ideal K G p) /\
    (forall a b, In a G -> In b G -> exists h, s_poly K (cquo K) vo S a b = Ok h /\ terminates_with (fun fuel => normal_form K (cquo K) S fuel h G) []) /\
    (forall f, norm f -> (gen_ideal K F (graw sm f) <-> terminates_with (fun fuel => normal_form K (cquo K) S fuel f G) [])) /\
    (forall f m, norm f -> leads m f -> gen_ideal K F (graw sm f) -> exists g lg, In g G /\ leads lg g /\ mdivides (sm lg) (sm m)).
Proof.
  intros psrt Hps F NF. destruct (sup_all F) as [vs SV].
  destruct (buchberger_ok K HK HF vo Hv S HS psrt Hps vs F NF SV) as (G & n0 & E & HR).
  exists G. split; [exists n0; exact E|]. pose proof HR as (HGB & HRD). pose proof HGB as (HG & MG & _ & HI & HL).
  assert (ID := gb_ideal K HK HF vo Hv S HS vs F G NF HGB). fold (gen_ideal K F) in ID. fold (gen_ideal K G) in ID. rewrite Forall_forall in HG, MG.
  split; [apply Forall_forall; intros g Hg; apply HG, Hg|].
  split; [|split; [|split; [exact ID|split; [|split]]]].
  - apply Forall_forall. intros g Hg. pose proof (HG g Hg) as [_ Gn]. pose proof (MG g Hg) as M. destruct g as [|[m c] g]; [congruence|].
    exists m, g. unfold monic, lc in M. cbn in M. rewrite M. reflexivity.
  - intros G1 g G2 EG t g' m Ht Hg' (c & r' & Eg') HD. subst G. apply in_app_or in Hg'. set (i := length G1).
    assert (exists j, i <> j /\ nth_error (map lm (G1 ++ g :: G2)) j = Some m) as (j & Hij & Ej).
    { destruct Hg' as [Hg'|Hg']; apply In_nth_error in Hg'; destruct Hg' as [j Ej].
      - exists j. assert (j < length G1)%nat by (apply nth_error_Some; congruence). split; [unfold i; lia|].
        rewrite map_app, nth_error_app1 by (rewrite map_length; lia). rewrite (map_nth_error lm _ _ Ej), Eg'. reflexivity.
      - exists (i + Datatypes.S j)%nat. split; [lia|]. rewrite map_app, nth_error_app2, map_length by (rewrite map_length; unfold i; lia).
        replace (i + Datatypes.S j - length G1)%nat with (Datatypes.S j) by (unfold i; lia). cbn [map nth_error]. rewrite (map_nth_error lm _ _ Ej), Eg'. reflexivity. }
    apply (HRD i j g m t); try assumption; [rewrite app_length; cbn; unfold i; lia|]. rewrite nth_error_app2, Nat.sub_diag by (unfold i; lia). reflexivity.
  - intros a b Ha Hb. pose proof (HG a Ha) as Ga. pose proof (HG b Hb) as Gb.
    destruct (C33_s_polynomial a b (proj1 Ga) (proj1 Gb) (proj2 Ga) (proj2 Gb)) as (h & L & mf & mg & lf & lg & af & ag & Es & Nh & _).
    exists h. split; [exact Es|]. destruct (gb_member K HK HF vo Hv S HS vs _ G h HGB Nh) as [n1 E1]; [|exists n1; exact E1].
    pose proof (C33_in_ideal a b h (proj1 Ga) (proj1 Gb) (proj2 Ga) (proj2 Gb) Es) as X.
    apply (ideal_incl K (map (fun g => graw sm g) [a; b])); [|exact X]. intros x [<-|[<-|[]]]; apply HI; assumption.
  - intros f Nf. split.
    + intros If. destruct (gb_member K HK HF vo Hv S HS vs _ G f HGB Nf If) as [n1 E1]. exists n1. exact E1.
    + intros [n1 E1]. apply (gb_member_conv K HK HF vo Hv S HS _ G f n1); [exact HI|apply Forall_forall; exact HG|exact Nf|apply E1; lia].
  - intros f m Nf (c & r & ->) If. destruct (HL (m, c) r Nf If) as (g & Hg & Dg). pose proof (HG g Hg) as [_ Gn]. destruct g as [|[lg cg] g]; [congruence|].
    exists ((lg, cg) :: g), lg. split; [exact Hg|]. split; [exists cg, g; reflexivity|exact Dg].
Qed.
(** The basis depends only on the ideal: generators of the same ideal, given in any order and with any sorting of the
    critical pairs, lead to the same polynomials. *)
Theorem C34_canonical : forall psrt1 psrt2, (forall l, Permutation l (psrt1 l)) -> (forall l, Permutation l (psrt2 l)) ->
  forall F1 F2 G1 G2, Forall norm F1 -> Forall norm F2 -> (forall p, gen_ideal K F1 p <-> gen_ideal K F2 p) ->
  terminates_with (fun fuel => buchberger K (cquo K) vo S psrt1 fuel F1) G1 ->
  terminates_with (fun fuel => buchberger K (cquo K) vo S psrt2 fuel F2) G2 -> Permutation G1 G2.
Proof.
  intros p1 p2 H1 H2 F1 F2 G1 G2 N1 N2 EQ [m1 T1] [m2 T2]. destruct (sup_all F1) as [vs1 SV1]. destruct (sup_all F2) as [vs2 SV2].
  destruct (buchberger_ok K HK HF vo Hv S HS p1 H1 vs1 F1 N1 SV1) as (G1' & n1 & E1 & R1).
  destruct (buchberger_ok K HK HF vo Hv S HS p2 H2 vs2 F2 N2 SV2) as (G2' & n2 & E2 & R2).
  assert (G1' = G1) by (pose proof (T1 (Nat.max m1 n1) ltac:(lia)); pose proof (E1 (Nat.max m1 n1) ltac:(lia)); congruence).
  assert (G2' = G2) by (pose proof (T2 (Nat.max m2 n2) ltac:(lia)); pose proof (E2 (Nat.max m2 n2) ltac:(lia)); congruence). subst.
  apply (rgb_unique K HK vo Hv S HS vs1 _ G1 vs2 _ G2 EQ R1 R2).
Qed.
End Field.
Print Assumptions C31_normal_form.
Print Assumptions C33_s_polynomial.
Print Assumptions C33_in_ideal.
Print Assumptions C34_groebner_basis.
Print Assumptions C34_canonical.

(** The Ideal class over QQ or Zp: after any history of calls, groebner_basis(), reduce() and contains() terminate;
    contains(f) tells whether f is in the ideal of the generators. *)
Section IdealField.
Context (vo : vorder) (S : monos mono) (HP : lib_poly vo S) (C : Type) (K : coefs C) (HF : field_ok K).
Context (psrt : list cpair -> list cpair) (Hps : forall l, Permutation l (psrt l)).
Notation norm := (normal (mok vo) (m_gt S) K).
Notation gbf := (buchberger K (cquo K) vo S psrt).
Notation nff := (normal_form K (cquo K) S).
Theorem C34_ideal_contains : forall F o f, Forall norm F -> norm f -> ideal_reach gbf nff F o ->
  exists b o', terminates_with (fun fuel => ideal_contains gbf nff fuel o f) (b, o') /\ ideal_reach gbf nff F o' /\
    (b = true <-> gen_ideal K F (graw sm f)).
Proof.
  intros F o f NF Nf HR. destruct (C34_groebner_basis vo S HP C K HF psrt Hps F NF) as (G & [n0 E] & NG & MG & _ & ID & _ & MEM & _).
  assert (GN : Forall (fun g => g <> []) G) by (eapply Forall_impl; [|exact MG]; intros g (m & r & ->); discriminate).
  destruct (C31_normal_form vo S HP C K HF f G Nf NG GN) as (r & [n1 E1] & _).
  destruct (ideal_gb_val gbf nff F o G n0 (fun n m x => buchberger_mono K _ vo S psrt n m F x) E HR) as [GB _].
  exists (match r with [] => true | _ => false end), (IdealObj F G true).
  assert (T : forall n, (Nat.max n0 n1 <= n)%nat -> ideal_contains gbf nff n o f = Ok (match r with [] => true | _ => false end, IdealObj F G true)).
  { intros n Hn. unfold ideal_contains, ideal_reduce. rewrite GB by lia. cbn [obind]. rewrite E1 by lia. reflexivity. }
  split; [exists (Nat.max n0 n1); exact T|]. split; [eapply ir_contains; [exact HR|apply (T _ (le_n _))]|].
  rewrite (MEM f Nf). split.
  - intros Hb. destruct r; [|discriminate]. exists n1. exact E1.
  - intros [n2 E2]. specialize (E1 (Nat.max n1 n2) ltac:(lia)). specialize (E2 (Nat.max n1 n2) ltac:(lia)). rewrite E2 in E1. injection E1 as <-. reflexivity.
Qed.
Theorem C34_ideal_reduce : forall F o f, Forall norm F -> norm f -> ideal_reach gbf nff F o ->
  exists r o' G, terminates_with (fun fuel => ideal_reduce gbf nff fuel o f) (r, o') /\ terminates_with (fun fuel => ideal_gb gbf fuel o) (G, o') /\
    gen_ideal K F (rsub K (graw sm f) (graw sm r)) /\ reduced_wrt G r /\ (forall p, gen_ideal K F p <-> gen_ideal K G p).
Proof.
  intros F o f NF Nf HR. destruct (C34_groebner_basis vo S HP C K HF psrt Hps F NF) as (G & [n0 E] & NG & MG & _ & ID & _).
  assert (GN : Forall (fun g => g <> []) G) by (eapply Forall_impl; [|exact MG]; intros g (m & r & ->); discriminate).
  destruct (C31_normal_form vo S HP C K HF f G Nf NG GN) as (r & [n1 E1] & _ & D & B & _).
  destruct (ideal_gb_val gbf nff F o G n0 (fun n m x => buchberger_mono K _ vo S psrt n m F x) E HR) as [GB _].
  exists r, (IdealObj F G true), G. split; [exists (Nat.max n0 n1)|split; [exists n0; exact GB|]].
  - intros n Hn. unfold ideal_reduce. rewrite GB by lia. cbn [obind]. rewrite E1 by lia. reflexivity.
  - split; [apply ID, D|]. split; [exact B|exact ID].
Qed.
End IdealField.
Print Assumptions C34_ideal_contains.
Print Assumptions C34_ideal_reduce.

(** groebner_basis over ZZ: terminates; the results are primitive integer polynomials with positive leading
    coefficient which generate over QQ the same ideal as F, and whose leading monomials divide those of the ideal. *)
Section ZZ.
Context (vo : vorder) (S : monos mono) (HP : lib_poly vo S).
Context (psrt : list cpair -> list cpair) (Hps : forall l, Permutation l (psrt l)).
Context (msrt : list (var * Z) -> list (var * Z)) (Hms : msort_ok vo msrt).
Context (srtq : poly qqc -> poly qqc) (Hsq : sort_ok (mok vo) (m_gt S) srtq).
Context (srtz : poly Z -> poly Z) (Hsz : sort_ok (mok vo) (m_gt S) srtz).
Notation norm := (normal (mok vo) (m_gt S) Zc).
Notation gbf := (groebner_ZZ vo S psrt msrt srtq srtz).
Notation nff := (normal_form_ZZ S).
Theorem C34_groebner_basis_ZZ : forall F, Forall norm F ->
  exists G, terminates_with (fun fuel => gbf fuel F) G /\ Forall norm G /\ Forall primitive_pos G /\
    (forall p, q_ideal F p <-> q_ideal G p) /\
    (forall f m, norm f -> leads m f -> q_ideal F (qpoly (graw sm f)) -> exists g lg, In g G /\ leads lg g /\ mdivides (sm lg) (sm m)).
Proof.
  intros F NF. pose proof (lib_vorder_ok vo (proj1 HP)) as Hv. pose proof (proj2 HP) as HS.
  destruct (groebner_ZZ_ok vo Hv S HS psrt Hps msrt Hms srtq Hsq srtz Hsz F NF) as (vs & G & Gz & n0 & E & HR & F2 & P).
  destruct (groebner_ZZ_props vo Hv S HS msrt Hms srtq Hsq vs G Gz F NF HR F2) as (HG & ID & HL).
  exists Gz. split; [exists n0; exact E|]. split; [eapply Forall_impl; [|exact HG]; intros g [A _]; exact A|]. split; [exact P|]. split; [exact ID|].
  intros f m Nf (c & r & ->) If. destruct (HL (m, c) r Nf If) as (g & Hg & Dg). rewrite Forall_forall in HG. destruct (HG g Hg) as [_ Gn].
  destruct g as [|[lg cg] g]; [congruence|]. exists ((lg, cg) :: g), lg. split; [exact Hg|]. split; [exists cg, g; reflexivity|exact Dg].
Qed.
(** C32, what holds: whenever Ideal<ZZ>::contains(f) returns, its answer is membership of f in the ideal generated over
    QQ (not over ZZ), after any history of calls.  Whenever normal_form over ZZ returns r, f - r is in the integer ideal of G and r is reduced. *)
Theorem C32_contains_sound_partial : forall F o f n b o', Forall norm F -> norm f -> ideal_reach gbf nff F o ->
  ideal_contains gbf nff n o f = Ok (b, o') -> (b = true <-> q_ideal F (qpoly (graw sm f))).
Proof.
  intros F o f n b o' NF Nf HR E. pose proof (lib_vorder_ok vo (proj1 HP)) as Hv. pose proof (proj2 HP) as HS.
  destruct (groebner_ZZ_ok vo Hv S HS psrt Hps msrt Hms srtq Hsq srtz Hsz F NF) as (vs & G & Gz & n0 & EG & HRG & F2 & P).
  destruct (groebner_ZZ_props vo Hv S HS msrt Hms srtq Hsq vs G Gz F NF HRG F2) as (HG & ID & HL).
  destruct (ideal_gb_val gbf nff F o Gz n0 (fun n m x => groebner_ZZ_mono vo S psrt msrt srtq srtz n m F x) EG HR) as [_ GB].
  unfold ideal_contains, ideal_reduce in E. destruct (ideal_gb gbf n o) as [[G1 o1]| | |] eqn:E1; try discriminate. destruct (GB _ _ _ E1) as [-> ->]. cbn [obind] in E.
  destruct (nff n f Gz) as [r| | |] eqn:E2; try discriminate. cbn [obind] in E. injection E as <- _.
  rewrite <- (contains_ZZ_partial vo Hv S HS F Gz n f r HG ID HL Nf E2). destruct r; split; congruence.
Qed.
Theorem C32_normal_form_ZZ_partial : forall f G n r, norm f -> Forall norm G -> Forall (fun g => g <> []) G -> nff n f G = Ok r ->
  norm r /\ reduced_wrt G r /\ gen_ideal Zc G (rsub Zc (graw sm f) (graw sm r)).
Proof.
  intros f G n r Nf NG GN E. pose proof (lib_vorder_ok vo (proj1 HP)) as Hv. pose proof (proj2 HP) as HS.
  destruct (nf_partial_top Zc (domain_ring _ Zc_domain) Zc_domain Z.quot vo Hv S HS G n f r (gok_all Zc vo S G NG GN) Nf E) as (A & B & D).
  split; [exact A|]. split; [apply irred_reduced, B|exact D].
Qed.
End ZZ.
Print Assumptions C34_groebner_basis_ZZ.
Print Assumptions C32_contains_sound_partial.
Print Assumptions C32_normal_form_ZZ_partial.

(** C32 as stated is false: Ideal<ZZ>({2x+1}).contains(x) never returns - whatever the bound, the reduction of x modulo
    2x+1 subtracts 0*(2x+1) for ever, since 1/2 = 0 in ZZ. *)
Definition ex_g : poly Z := [(mono_var 1, 2); (mono1, 1)].
Definition ex_f : poly Z := [(mono_var 1, 1)].
Definition ex_ms : list (N * Z) -> list (N * Z) := isort vless.
Definition ex_sq : poly qqc -> poly qqc := isort (lex_gt vless).
Definition ex_sz : poly Z -> poly Z := isort (lex_gt vless).
Theorem C32_ideal_ZZ_terminates_refuted :
  let gbf := groebner_ZZ vless (lexS vless) (fun l => l) ex_ms ex_sq ex_sz in
  (forall n, ideal_contains gbf (normal_form_ZZ (lexS vless)) n (ideal_new [ex_g]) ex_f = OutOfFuel) /\
  (forall n, normal_form_ZZ (lexS vless) n ex_f [ex_g] = OutOfFuel).
Proof.
  intros gbf.
  assert (ST : forall n, normal_form_ZZ (lexS vless) n ex_f [ex_g] = OutOfFuel).
  { intros n. change (normal_form_ZZ (lexS vless) n ex_f [ex_g]) with (x <- nf_loop Zc Z.quot (lexS vless) n [ex_g] [] ((mono_var 1, 1) :: []) [] 0 ;; Ok (fst x)).
    rewrite (nf_stuck Zc (domain_ring _ Zc_domain) Z.quot vless (lib_vorder_ok _ lv_less) (lexS vless) (or_introl eq_refl) [ex_g] []
      (mono_var 1, 1) 0 mono1 (mono_var 1, 2) [(mono1, 1)]); try reflexivity; [|discriminate].
    apply mok_var || (split; [repeat constructor|split; [repeat constructor; lia|reflexivity]]). }
  split; [|exact ST]. intros n.
  destruct n as [|n]; [reflexivity|]. destruct n as [|n]; [reflexivity|]. destruct n as [|n]; [reflexivity|].
  unfold ideal_contains, ideal_reduce.
  assert (E : ideal_gb gbf (3 + n) (ideal_new [ex_g]) = Ok ([ex_g], IdealObj [ex_g] [ex_g] true)) by reflexivity.
  change (Datatypes.S (Datatypes.S (Datatypes.S n))) with (3 + n)%nat. rewrite E. cbn [obind]. rewrite ST. reflexivity.
Qed.
Print Assumptions C32_ideal_ZZ_terminates_refuted.

(** C33 over ZZ is false as well: the S-polynomial of 2x+3 and y+1 computed with truncated quotients (3/2 = 1) is
    y - x, which is not in the integer ideal they generate. *)
Definition ex_a : poly Z := [(mono_var 1, 2); (mono1, 3)].
Definition ex_b : poly Z := [(mono_var 2, 1); (mono1, 1)].
Theorem C33_s_polynomial_ZZ_refuted :
  exists h, s_poly Zc Z.quot vless (lexS vless) ex_a ex_b = Ok h /\ ~ gen_ideal Zc [ex_a; ex_b] (graw sm h).
Proof.
  eexists. split; [reflexivity|]. intros H.
  (* every element of the ideal is a multiple of 3 at x = 0, y = -1 *)
  assert (X : forall p, gen_ideal Zc [ex_a; ex_b] p -> (3 | reval Zc (fun v => if N.eqb v 2 then -1 else 0) p)).
  { intros p. unfold gen_ideal. cbn [map]. induction 1 as [g Hg| |p q _ IH1 _ IH2|a p _ IH|p q E _ IH].
    - destruct Hg as [<-|[<-|[]]]; [exists 1; reflexivity|exists 0; reflexivity].
    - exists 0. reflexivity.
    - rewrite (reval_add Zc (domain_ring _ Zc_domain)). apply Z.divide_add_r; assumption.
    - rewrite (reval_mul Zc (domain_ring _ Zc_domain)). apply Z.divide_mul_r, IH.
    - rewrite <- (reval_proper Zc (domain_ring _ Zc_domain) _ p q E). exact IH. }
  apply X in H. destruct H as [k Hk]. match type of Hk with ?a = _ => change a with (-1) in Hk end. lia.
Qed.
Print Assumptions C33_s_polynomial_ZZ_refuted.
(** Undefined behaviour: a zero polynomial among the divisors is dereferenced. *)
Theorem C31_zero_divisor_ub : forall C (K : coefs C) dv S t f n, normal_form K dv S (Datatypes.S n) (t :: f) [[]] = UB.
Proof. reflexivity. Qed.

(** Concrete instances: {2x^2+y, xy-1} over QQ, ordered by total degree. *)
Definition exq (l : list (mono * Z)) : poly qqc := map (fun t => (fst t, qqc_int (snd t))) l.
Definition exq_F : list (poly qqc) := [exq [(Mono [(1%N, 2)] 2, 2); (mono_var 2, 1)]; exq [(Mono [(1%N, 1); (2%N, 1)] 2, 1); (mono1, -1)]].
Example C34_example :
  match buchberger QQc (cquo QQc) vless (grlexS vless) (fun l => l) 20 exq_F with
  | Ok G => map (map (fun t => (md (fst t), qnum (proj1_sig (snd t)), qden (proj1_sig (snd t))))) G =
            [[([(1%N, 2)], 1, 1); ([(2%N, 1)], 1, 2)]; [([(1%N, 1); (2%N, 1)], 1, 1); ([], -1, 1)]; [([(2%N, 2)], 1, 1); ([(1%N, 1)], 2, 1)]]
  | _ => False
  end.
Proof. vm_compute. reflexivity. Qed.
Lemma exq_F_normal : Forall (normal (mok vless) (m_gt (grlexS vless)) QQc) exq_F.
Proof.
  assert (M : forall l, desc vless l -> Forall (fun t => 0 < snd t) l -> mok vless (Mono l (deg_sum l))) by (intros l A B; split; [exact A|split; [exact B|reflexivity]]).
  repeat constructor; try (apply (M [_; _])); try (apply (M [_])); try apply (M []); repeat constructor; discriminate.
Qed.
Example C34_example_hyps : lib_poly vless (grlexS vless) /\ field_ok QQc /\ Forall (normal (mok vless) (m_gt (grlexS vless)) QQc) exq_F /\
  exists G, terminates_with (fun fuel => buchberger QQc (cquo QQc) vless (grlexS vless) (fun l => l) fuel exq_F) G /\ length G = 3%nat.
Proof.
  split; [split; [constructor|right; reflexivity]|]. split; [exact QQc_field|]. split; [exact exq_F_normal|].
  destruct (C34_groebner_basis vless (grlexS vless) (conj lv_less (or_intror eq_refl)) qqc QQc QQc_field (fun l => l) (fun l => Permutation_refl l) exq_F exq_F_normal)
    as (G & [n0 T] & _). exists G. split; [exists n0; exact T|].
  pose proof C34_example as X. destruct (buchberger QQc (cquo QQc) vless (grlexS vless) (fun l => l) 20 exq_F) as [G'| | |] eqn:E; try contradiction.
  apply (buchberger_mono QQc _ _ _ _ 20 (Nat.max 20 n0)) in E; [|lia]. rewrite T in E by lia. injection E as <-.
  apply (f_equal (@length _)) in X. rewrite map_length in X. exact X.
Qed.
(** Ideal<ZZ> on an input where it does return: {x^2-1}: x^3-x is found to be in the ideal, x is not. *)
Example C32_example :
  let gbf := groebner_ZZ vless (lexS vless) (fun l => l) ex_ms ex_sq ex_sz in
  let o := ideal_new [[(Mono [(1%N, 2)] 2, 1); (mono1, -1)]] in
  (exists o', ideal_contains gbf (normal_form_ZZ (lexS vless)) 10 o [(Mono [(1%N, 3)] 3, 1); (mono_var 1, -1)] = Ok (true, o')) /\
  (exists o', ideal_contains gbf (normal_form_ZZ (lexS vless)) 10 o [(mono_var 1, 1)] = Ok (false, o')).
Proof. split; eexists; vm_compute; reflexivity. Qed.
