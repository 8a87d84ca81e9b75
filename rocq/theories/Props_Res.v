(** * C37: resultant(F,G,v) is the determinant of the Sylvester matrix.

    Specification in ResSpec.v: [determinant] by expansion along the first column, [sylvester K v m l F G],
    the matrix of the coefficients in v of v^(l-1)*F, ..., F, v^(m-1)*G, ..., G.  [deg_is p v d]: p has degree d
    in v; [vfree K v p]: v does not occur in p; [ideal K [F;G] p]: p = a*F + b*G for some a, b.
    [compress] and [dcompress] are the packed shortcuts tried by multiplication and division: [comp_all] and
    [dcomp_good] say that when they answer, the answer is the product / quotient.  [ms1], [ms2], [s1], [s2] are the
    sorts used by poly_convert.  [ring_for_resultant]: true of the integers, the rationals and Z/p. *)
From Coq Require Import Ring_theory Ring Setoid Morphisms Lia.
From Verif Require Import Prelude Coef Spec SpecProofs SpecOps SpecOpsProofs OrderSpec PairVec PairVecProofs Mono MonoProofs
  MonoStruct MonoStructProofs Heap Poly PolyMulProofs Div PolyDivProofs PolyOps MonoOpsProofs PolyOpsGen PolyOpsProofs PolyOps2Proofs
  ConvertProofs PolyOps3Proofs Prem PremProofs GcdDom GcdPoly GcdMath GcdHom GcdRep GcdLex ResSpec ResDet ResMath ResChain ResSyl ResBez Resultant
  ResProofs ResInit ResBezProofs ResTop ResDisc Zp QQ NumSpec QQProofs ZpProofs Library LibraryProofs SortProofs Props_Poly Props_Div Props_Ops.
Local Open Scope Z_scope.

Definition ring_for_resultant {C} (K : coefs C) : Prop := domain_ok K /\ cgcd_ok K /\ quorem_ok K.
(** a common factor of positive degree in v *)
Definition common_factor {C} (K : coefs C) (v : var) (F G : rpoly C) : Prop :=
  exists P d, rdivides K P F /\ rdivides K P G /\ deg_is K P v d /\ (0 < d)%N.

Lemma C37_integers : ring_for_resultant Zc.
Proof. split; [exact Zc_domain|]. split; [exact Z_cgcd|exact Zc_quorem]. Qed.
Section FQ.
Context {C : Type} (K : coefs C) (HF : field_ok K).
Let HK : ring_ok K := domain_ring K (field_domain K HF).
Add Ring KringF : (ring_laws K HK).
Lemma field_quorem : quorem_ok K.
Proof.
  split; intros a b Hb.
  - rewrite (field_quo K HF a b Hb), (field_rem K HF a b Hb). ring.
  - pose proof (field_quo K HF (cmul K a b) b Hb) as E. set (q := cquo K (cmul K a b) b) in *.
    assert (Z : cmul K (csub K q a) b = c0 K) by (transitivity (csub K (cmul K q b) (cmul K a b)); [ring|rewrite E; ring]).
    destruct (domain_integral K (field_domain K HF) _ _ Z) as [Q|Q]; [|congruence].
    transitivity (cadd K (csub K q a) a); [ring|]. rewrite Q. ring.
Qed.
End FQ.
Lemma C37_fields C (K : coefs C) : field_ok K -> ring_for_resultant K.
Proof. intros H. split; [exact (field_domain K H)|]. split; [exact (field_cgcd K H)|exact (field_quorem K H)]. Qed.
Lemma C37_rationals : ring_for_resultant QQc.
Proof. apply C37_fields, QQc_field. Qed.
Lemma C37_mod_p p (Hp : modulus p) : Znumtheory.prime p -> ring_for_resultant (Zpc p Hp).
Proof. intros Pr. apply C37_fields, Zpc_field, Pr. Qed.

(** The determinant, when at least one degree is positive. *)
Section Math.
Context {C : Type} (K : coefs C) (HR : ring_for_resultant K) (v : var).
Let HD := proj1 HR.
Let HG := proj1 (proj2 HR).
Let HK : ring_ok K := domain_ring K HD.
Local Existing Instance HK.
Notation rpoly := (rpoly C).
Local Infix "==" := (req K) (at level 70).
Lemma deg_lead (p : rpoly) n : deg_is K p v (N.of_nat n) -> ~ p == r0 -> ~ cf K v n p == r0.
Proof.
  intros [Hl [H0|(m & Hm & E)]] Np.
  - destruct (not_zero_coef K HD _ Np) as [m Hm]. apply (cf_nz K HD v _ _ m Hm). specialize (Hl m Hm). lia.
  - apply (cf_nz K HD v _ _ m Hm E).
Qed.
Context (F G : rpoly) (m l : nat) (DF : deg_is K F v (N.of_nat m)) (DG : deg_is K G v (N.of_nat l)) (Hml : (1 <= m + l)%nat).
Notation res := (determinant K (sylvester K v m l F G)).
(** v does not occur in it, *)
Theorem C37_det_free : vfree K v res.
Proof.
  pose proof (deg_dl K v m F DF) as A. pose proof (deg_dl K v l G DG) as B.
  rewrite <- (subres_det K HD v m l F G Hml A B). apply (subres_free K HD v m l F G Hml A B).
Qed.
(** it is a combination of F and G, *)
Theorem C37_det_ideal : ideal K [F; G] res.
Proof.
  pose proof (deg_dl K v m F DF) as A. pose proof (deg_dl K v l G DG) as B.
  apply (ideal_eq K [F; G] _ _ (subres_det K HD v m l F G Hml A B)). apply (subres_ideal K HD v m l F G Hml).
Qed.
(** and it vanishes exactly when F and G have a common factor of positive degree in v. *)
Theorem C37_det_zero : ~ F == r0 -> ~ G == r0 -> (res == r0 <-> common_factor K v F G).
Proof.
  intros NF NG. pose proof (deg_dl K v m F DF) as A. pose proof (deg_dl K v l G DG) as B.
  rewrite <- (subres_det K HD v m l F G Hml A B). split.
  - intros E. destruct (subres_zero_common K HD HG v (m + l) m l F G (le_n _) Hml A B (deg_lead F m DF NF) (deg_lead G l DG NG) E) as (P & d & _ & R).
    exists P, d. exact R.
  - intros (P & d & PF & PG & Pd & H0). apply (subres_common K HD HG v m l F G P d Hml A B PF PG Pd H0).
Qed.
End Math.
Print Assumptions C37_det_free.
Print Assumptions C37_det_ideal.
Print Assumptions C37_det_zero.

Section Statements.
Context (vo : vorder) (S : monos mono) (HP : lib_poly vo S) (C : Type) (K : coefs C) (HR : ring_for_resultant K) (v : var).
Context (compress dcompress : poly C -> poly C -> outcome (option (poly C))).
Notation upn := (normal (mok (vuniv v)) (lex_gt (vuniv v)) K).
Context (HC : comp_all (lexS (vuniv v)) (mok (vuniv v)) sm K compress).
Context (HDC : forall F G, upn F -> upn G -> dcomp_good (lexS (vuniv v)) (mok (vuniv v)) sm K dcompress F G).
Context (ms1 ms2 : list (var * Z) -> list (var * Z)) (s1 s2 : poly C -> poly C).
Context (Hm1 : msort_ok (vuniv v) ms1) (Hm2 : msort_ok vo ms2).
Context (Hs1 : sort_ok (mok (vuniv v)) (lex_gt (vuniv v)) s1) (Hs2 : sort_ok (mok vo) (m_gt S) s2).
Notation norm := (normal (mok vo) (m_gt S) K).
Notation graw := (graw sm).
Notation "a == b" := (req K a b) (at level 70).
Notation res F G := (fun fuel => resultant K vo (m_gt S) v compress dcompress ms1 ms2 s1 s2 fuel F G).
Let HD := proj1 HR.
Let HK : ring_ok K := domain_ring K HD.
Local Existing Instance HK.

Lemma syl_eq m l (F G F' G' : rpoly C) : dl K v (Datatypes.S m) F -> dl K v (Datatypes.S l) G -> F == F' -> G == G' ->
  determinant K (sylvester K v m l F G) == determinant K (sylvester K v m l F' G').
Proof.
  intros A B E1 E2. destruct (Nat.eq_dec (m + l) 0) as [Z|Z].
  - assert (m = 0%nat) as -> by lia. assert (l = 0%nat) as -> by lia. reflexivity.
  - assert (A' : dl K v (Datatypes.S m) F') by (apply (dl_proper K v _ _ _ E1), A).
    assert (B' : dl K v (Datatypes.S l) G') by (apply (dl_proper K v _ _ _ E2), B).
    rewrite <- (subres_det K HD v m l F G) by (assumption || lia). rewrite <- (subres_det K HD v m l F' G') by (assumption || lia).
    apply (subres_eq K HD v m l _ _ _ _ E1 E2).
Qed.

Theorem C37_resultant : forall F G, norm F -> norm G -> F <> [] -> G <> [] ->
  p_degree F v < 2 ^ 63 -> p_degree G v < 2 ^ 63 ->
  exists R, terminates_with (res F G) R /\ norm R /\
    forall m l, deg_is K (graw F) v (N.of_nat m) -> deg_is K (graw G) v (N.of_nat l) ->
      graw R == determinant K (sylvester K v m l (graw F) (graw G)).
Proof.
  intros F G NF NG Fne Gne BF BG. destruct HP as [Hv HS]. apply lib_vorder_ok in Hv. pose proof (vuniv_ok v) as Hu.
  destruct (up_spec vo Hv S HS K HK v Hu ms1 s1 Hm1 Hs1 F NF) as [NF' RF].
  destruct (up_spec vo Hv S HS K HK v Hu ms1 s1 Hm1 Hs1 G NG) as [NG' RG].
  pose proof (up_ne vo Hv S HS K HK v Hu ms1 s1 Hm1 Hs1 F NF Fne) as Fne'.
  pose proof (up_ne vo Hv S HS K HK v Hu ms1 s1 Hm1 Hs1 G NG Gne) as Gne'.
  pose proof (up_deg vo Hv S HS K HK v Hu ms1 s1 Hm1 Hs1 F NF) as EF.
  pose proof (up_deg vo Hv S HS K HK v Hu ms1 s1 Hm1 Hs1 G NG) as EG.
  set (F1 := up K v ms1 s1 F) in *. set (G1 := up K v ms1 s1 G) in *.
  destruct (up_deg_spec K HD v F1 NF') as (F1d & F1p & F1s). destruct (up_deg_spec K HD v G1 NG') as (G1d & G1p & G1s).
  destruct (up_ok K HD (proj1 (proj2 HR)) (proj2 (proj2 HR)) v compress dcompress HC HDC F1 G1 NF' NG' Fne' Gne') as (O1 & N1 & R1 & n0 & T);
    [unfold dg; rewrite Z2Nat.id by exact F1p; rewrite F1d, EF; exact BF|unfold dg; rewrite Z2Nat.id by exact G1p; rewrite G1d, EG; exact BG|].
  destruct (down_spec vo Hv S HS K HK v Hu ms2 s2 Hm2 Hs2 O1 N1) as [ND RD].
  exists (down vo S K ms2 s2 O1). split; [|split; [exact ND|]].
  - exists n0. intros fuel Hf. unfold resultant. cbv zeta. fold (up K v ms1 s1). fold F1. fold G1. rewrite (T fuel Hf). reflexivity.
  - intros m l Dm Dl. rewrite RD, R1. rewrite <- RF in Dm. rewrite <- RG in Dl.
    pose proof (deg_is_unique K _ _ _ _ Dm F1s) as Em. pose proof (deg_is_unique K _ _ _ _ Dl G1s) as El.
    assert (m = dg v F1) as -> by lia. assert (l = dg v G1) as -> by lia.
    apply syl_eq; [apply (deg_dl K v), F1s|apply (deg_dl K v), G1s|exact RF|exact RG].
Qed.
(** The resultant with the zero polynomial is zero. *)
Theorem C37_zero_argument : forall F fuel, res F [] fuel = Ok [] /\ res [] F fuel = Ok [].
Proof.
  intros F fuel. pose proof HP as HP0. destruct HP as [Hv HS]. apply lib_vorder_ok in Hv. pose proof (vuniv_ok v) as Hu. unfold resultant. cbv zeta.
  fold (up K v ms1 s1). fold (down vo S K ms2 s2).
  assert (Eu : up K v ms1 s1 [] = []).
  { destruct (up_spec vo Hv S HS K HK v Hu ms1 s1 Hm1 Hs1 [] (norm_nil S (mok vo) K)) as [N R].
    apply (graw_nil_req (lexS (vuniv v)) (mok (vuniv v)) sm K (lexS_ok _ Hu) HK _ N R). }
  assert (Ed : down vo S K ms2 s2 [] = []).
  { destruct (down_spec vo Hv S HS K HK v Hu ms2 s2 Hm2 Hs2 [] (norm_nil (lexS (vuniv v)) (mok (vuniv v)) K)) as [N R].
    apply (graw_nil_req S (mok vo) sm K (lib_monos_ok mono S (mok vo) sm (lib_poly_monos vo S HP0)) HK _ N R). }
  rewrite Eu. unfold resultant_up. destruct (up K v ms1 s1 F); cbn [obind]; rewrite Ed; split; reflexivity.
Qed.
End Statements.
Print Assumptions C37_resultant.
Print Assumptions C37_zero_argument.

(** The four facts together, for the value returned. *)
Section Together.
Context (vo : vorder) (S : monos mono) (HP : lib_poly vo S) (C : Type) (K : coefs C) (HR : ring_for_resultant K) (v : var).
Context (compress dcompress : poly C -> poly C -> outcome (option (poly C))).
Notation upn := (normal (mok (vuniv v)) (lex_gt (vuniv v)) K).
Context (HC : comp_all (lexS (vuniv v)) (mok (vuniv v)) sm K compress).
Context (HDC : forall F G, upn F -> upn G -> dcomp_good (lexS (vuniv v)) (mok (vuniv v)) sm K dcompress F G).
Context (ms1 ms2 : list (var * Z) -> list (var * Z)) (s1 s2 : poly C -> poly C).
Context (Hm1 : msort_ok (vuniv v) ms1) (Hm2 : msort_ok vo ms2).
Context (Hs1 : sort_ok (mok (vuniv v)) (lex_gt (vuniv v)) s1) (Hs2 : sort_ok (mok vo) (m_gt S) s2).
Notation norm := (normal (mok vo) (m_gt S) K).
Notation graw := (graw sm).
Notation "a == b" := (req K a b) (at level 70).
Let HK : ring_ok K := domain_ring K (proj1 HR).
Local Existing Instance HK.
Theorem C37_resultant_properties : forall F G, norm F -> norm G -> F <> [] -> G <> [] ->
  p_degree F v < 2 ^ 63 -> p_degree G v < 2 ^ 63 -> 0 < p_degree F v + p_degree G v ->
  exists R, terminates_with (fun fuel => resultant K vo (m_gt S) v compress dcompress ms1 ms2 s1 s2 fuel F G) R /\
  vfree K v (graw R) /\ ideal K [graw F; graw G] (graw R) /\ (R = [] <-> common_factor K v (graw F) (graw G)).
Proof.
  intros F G NF NG Fne Gne BF BG Hpos.
  destruct (C37_resultant vo S HP C K HR v compress dcompress HC HDC ms1 ms2 s1 s2 Hm1 Hm2 Hs1 Hs2 F G NF NG Fne Gne BF BG) as (R' & T & NR & D).
  pose proof HP as HP0. destruct HP as [Hv HS]. apply lib_vorder_ok in Hv.
  pose proof (lib_monos_ok mono S (mok vo) sm (lib_poly_monos vo S HP0)) as HM.
  destruct (p_degree_spec vo Hv S HS K HK F v NF) as [PF DF]. destruct (p_degree_spec vo Hv S HS K HK G v NG) as [PG DG].
  assert (NzF : ~ graw F == r0) by (intros X; apply Fne, (graw_nil_req S (mok vo) sm K HM HK F NF X)).
  assert (NzG : ~ graw G == r0) by (intros X; apply Gne, (graw_nil_req S (mok vo) sm K HM HK G NG X)).
  set (m := Z.to_nat (p_degree F v)). set (l := Z.to_nat (p_degree G v)).
  assert (DF' : deg_is K (graw F) v (N.of_nat m)) by (unfold m; rewrite Z_nat_N; exact DF).
  assert (DG' : deg_is K (graw G) v (N.of_nat l)) by (unfold l; rewrite Z_nat_N; exact DG).
  specialize (D m l DF' DG'). assert (Hml : (1 <= m + l)%nat) by lia.
  exists R'. split; [exact T|].
  split; [rewrite D; apply (C37_det_free K HR v _ _ m l DF' DG' Hml)|].
  split; [apply (ideal_eq K _ _ _ (symmetry D)), (C37_det_ideal K HR v _ _ m l DF' DG' Hml)|].
  rewrite <- (C37_det_zero K HR v _ _ m l DF' DG' Hml NzF NzG), <- D. split; [intros ->; reflexivity|apply (graw_nil_req S (mok vo) sm K HM HK R' NR)].
Qed.
End Together.
Print Assumptions C37_resultant_properties.

(** Example, over the integers with the variables x = 1, y = 2 in the order x > y: F = x^3 + y*x + 1 and
    G = 3*x^2 + y have the resultant 4*y^3 + 27; the hypotheses are met. *)
Definition ex_F : poly Z := [(re_deg [(1%N, 3)], 1); (re_deg [(1%N, 1); (2%N, 1)], 1); (mono1, 1)].
Definition ex_G : poly Z := [(re_deg [(1%N, 2)], 3); (re_deg [(2%N, 1)], 1)].
Example C37_example :
  resultant Zc vless (lex_gt vless) 1%N no_compress (fun _ _ => Ok None) (isort (vuniv 1%N)) (isort vless)
    (isort (lex_gt (vuniv 1%N))) (isort (lex_gt vless)) 9 ex_F ex_G = Ok [(re_deg [(2%N, 3)], 4); (mono1, 27)] /\
  normal (mok vless) (lex_gt vless) Zc ex_F /\ normal (mok vless) (lex_gt vless) Zc ex_G /\ ex_F <> [] /\ ex_G <> [] /\
  p_degree ex_F 1%N = 3 /\ p_degree ex_G 1%N = 2.
Proof.
  split; [vm_compute; reflexivity|]. split; [repeat constructor; discriminate|]. split; [repeat constructor; discriminate|].
  split; [discriminate|]. split; [discriminate|]. split; reflexivity.
Qed.
(** The hypotheses on the shortcuts hold of the ones that never answer. *)
Example C37_shortcuts : forall vo C (K : coefs C), comp_all (lexS vo) (mok vo) sm K no_compress /\
  forall F G, dcomp_good (lexS vo) (mok vo) sm K (fun _ _ => Ok None) F G.
Proof. intros vo C K. split; [intros F G _ _; exact I|intros F G; exact I]. Qed.

(** ** C48: discriminant(G,v), integer coefficients

    lc * D = (-1)^(m(m-1)/2) * det Sylvester(G, dG/dv), where m is the degree and lc the leading coefficient of
    G in v; D is zero exactly when G has a repeated factor of positive degree in v. *)
Section Discriminant.
Context (vo : vorder) (S : monos mono) (HP : lib_poly vo S) (v : var).
Context (compress dcompress : poly Z -> poly Z -> outcome (option (poly Z))).
Notation upn := (normal (mok (vuniv v)) (lex_gt (vuniv v)) Zc).
Context (HC : comp_all (lexS (vuniv v)) (mok (vuniv v)) sm Zc compress).
Context (HDC : forall F G, upn F -> upn G -> dcomp_good (lexS (vuniv v)) (mok (vuniv v)) sm Zc dcompress F G).
Context (ms1 ms2 : list (var * Z) -> list (var * Z)) (s1 s2 : poly Z -> poly Z).
Context (Hm1 : msort_ok (vuniv v) ms1) (Hm2 : msort_ok vo ms2).
Context (Hs1 : sort_ok (mok (vuniv v)) (lex_gt (vuniv v)) s1) (Hs2 : sort_ok (mok vo) (m_gt S) s2).
Notation norm := (normal (mok vo) (m_gt S) Zc).
Notation graw := (graw sm).
Notation "a == b" := (req Zc a b) (at level 70).
Notation disc G := (fun fuel => discriminant Zc vo (m_gt S) v compress dcompress ms1 ms2 s1 s2 fuel G).
Let HK : ring_ok Zc := domain_ring Zc Zc_domain.
Local Existing Instance HK.

Theorem C48_discriminant : forall G, norm G -> 0 < p_degree G v < 2 ^ 31 ->
  exists D, terminates_with (disc G) D /\ norm D /\
    (forall m, deg_is Zc (graw G) v (N.of_nat m) ->
      rmul Zc (rcoeff Zc v (N.of_nat m) (graw G)) (graw D) ==
      rmul Zc (rconst ((-1) ^ (Z.of_nat m * (Z.of_nat m - 1) / 2)))
              (determinant Zc (sylvester Zc v m (m - 1) (graw G) (rderiv Zc v (graw G))))) /\
    (D <> [] <-> forall P d, rdivides Zc (rmul Zc P P) (graw G) -> deg_is Zc P v d -> d = 0%N).
Proof.
  intros G NG BG. pose proof HP as HP0. destruct HP as [Hv HS]. apply lib_vorder_ok in Hv. pose proof (vuniv_ok v) as Hu.
  destruct (up_spec vo Hv S HS Zc HK v Hu ms1 s1 Hm1 Hs1 G NG) as [NG' RG].
  pose proof (up_deg vo Hv S HS Zc HK v Hu ms1 s1 Hm1 Hs1 G NG) as EG.
  set (G1 := up Zc v ms1 s1 G) in *.
  destruct (up_deg_spec Zc Zc_domain v G1 NG') as (G1d & G1p & G1s).
  assert (ED : Z.of_nat (dg v G1) = p_degree G v) by (unfold dg; rewrite Z2Nat.id by exact G1p; rewrite G1d; exact EG).
  destruct (disc_core_ok v compress dcompress HC HDC G1 NG') as (D1 & N1 & R1 & n0 & T); [lia|lia|].
  destruct (down_spec vo Hv S HS Zc HK v Hu ms2 s2 Hm2 Hs2 D1 N1) as [ND RD].
  exists (down vo S Zc ms2 s2 D1). split; [|split; [exact ND|]].
  - exists n0. intros fuel Hf. specialize (T fuel Hf). unfold discriminant. cbv zeta. fold (up Zc v ms1 s1). fold G1.
    destruct (Z.eqb_spec (p_up_deg v G1) 0) as [E0|_]; [exfalso; lia|]. unfold disc_core in T.
    destruct (resultant_up Zc v compress dcompress fuel G1 (p_derivative_lex Zc G1)) as [O1| | |]; try discriminate. cbn [obind] in *. refine (eq_trans (f_equal (fun o => obind o _) T) _). reflexivity.
  - assert (NzG : ~ graw G == r0) by (intros X; assert (G = []) as -> by (apply (graw_nil_req S (mok vo) sm Zc (lib_monos_ok mono S (mok vo) sm (lib_poly_monos vo S HP0)) HK G NG X)); cbn in BG; lia).
    assert (Er : rderiv Zc v (graw G1) == rderiv Zc v (graw G)) by apply (rderiv_proper Zc HK v _ _ RG).
    assert (Main : forall m, deg_is Zc (graw G) v (N.of_nat m) ->
      (1 <= m)%nat /\ dl Zc v (Datatypes.S m) (graw G) /\ dl Zc v (Datatypes.S (m - 1)) (rderiv Zc v (graw G)) /\
      rmul Zc (rcoeff Zc v (N.of_nat m) (graw G)) (graw (down vo S Zc ms2 s2 D1)) ==
      rmul Zc (rconst ((-1) ^ (Z.of_nat m * (Z.of_nat m - 1) / 2))) (determinant Zc (sylvester Zc v m (m - 1) (graw G) (rderiv Zc v (graw G))))).
    { intros m Dm. pose proof Dm as Dm'. rewrite <- RG in Dm'. pose proof (deg_is_unique Zc _ _ _ _ Dm' G1s) as Em.
      assert (m = dg v G1) as -> by lia. assert (Hm : (1 <= dg v G1)%nat) by lia. split; [exact Hm|].
      assert (A : dl Zc v (Datatypes.S (dg v G1)) (graw G1)) by (apply (deg_dl Zc v), G1s).
      assert (B : dl Zc v (Datatypes.S (dg v G1 - 1)) (rderiv Zc v (graw G1))).
      { destruct (deriv_ok v compress dcompress HC HDC G1 NG' Hm) as (NF & RF & _ & DF). apply (proj1 (dl_proper Zc v _ _ _ RF)). rewrite <- DF. apply (dg_dl Zc Zc_domain v _ NF). }
      split; [apply (proj1 (dl_proper Zc v _ _ _ RG)), A|]. split; [apply (proj1 (dl_proper Zc v _ _ _ Er)), B|].
      transitivity (rmul Zc (graw D1) (cf Zc v (dg v G1) (graw G1))).
      { rewrite RD. transitivity (rmul Zc (graw D1) (rcoeff Zc v (N.of_nat (dg v G1)) (graw G))); [apply (Rmul_comm (rring Zc HK))|].
        apply (rmul_proper Zc HK); [reflexivity|]. symmetry. apply (cf_proper Zc Zc_domain v), RG. }
      rewrite R1. unfold dsign. apply (rmul_proper Zc HK); [reflexivity|]. apply (syl_eq Z Zc C37_integers v); assumption. }
    split; [intros m Dm; apply (Main m Dm)|].
    assert (Dm : deg_is Zc (graw G) v (N.of_nat (dg v G1))) by (rewrite <- RG; exact G1s).
    destruct (Main _ Dm) as (Hm & A & B & E). set (m := dg v G1) in *.
    assert (Lz : ~ rcoeff Zc v (N.of_nat m) (graw G) == r0) by apply (deg_lead Zc C37_integers v (graw G) m Dm NzG).
    set (D := down vo S Zc ms2 s2 D1) in *.
    assert (Z0 : graw D == r0 <-> determinant Zc (sylvester Zc v m (m - 1) (graw G) (rderiv Zc v (graw G))) == r0).
    { assert (Sg : ~ rconst ((-1) ^ (Z.of_nat m * (Z.of_nat m - 1) / 2)) == (@r0 Z)).
      { change (rconst ((-1) ^ (Z.of_nat m * (Z.of_nat m - 1) / 2))) with (dsign m). rewrite (dsign_val m Hm). intros X. specialize (X []). cbn in X. destruct (Z.odd _); discriminate. }
      split; intros X.
      - assert (Y : rmul Zc (rconst ((-1) ^ (Z.of_nat m * (Z.of_nat m - 1) / 2))) (determinant Zc (sylvester Zc v m (m - 1) (graw G) (rderiv Zc v (graw G)))) == r0).
        { rewrite <- E. rewrite X. rewrite (Rmul_comm (rring Zc HK)). reflexivity. }
        apply (rintegral Zc Zc_domain Z_cgcd) in Y as [Y|Y]; [contradiction|exact Y].
      - assert (Y : rmul Zc (rcoeff Zc v (N.of_nat m) (graw G)) (graw D) == r0).
        { rewrite E, X. rewrite (Rmul_comm (rring Zc HK)). reflexivity. }
        apply (rintegral Zc Zc_domain Z_cgcd) in Y as [Y|Y]; [contradiction|exact Y]. }
    assert (Dn : D = [] <-> graw D == r0) by (split; [intros ->; reflexivity|apply (graw_nil_req S (mok vo) sm Zc (lib_monos_ok mono S (mok vo) sm (lib_poly_monos vo S HP0)) HK D ND)]).
    assert (Nd : ~ cf Zc v (m - 1) (rderiv Zc v (graw G)) == r0).
    { intros X. rewrite (cf_deriv Zc Zc_domain v) in X. replace (m - 1 + 1)%nat with m in X by lia.
      apply (rintegral Zc Zc_domain Z_cgcd) in X as [X|X]; [|exact (Lz X)].
      assert (Y : cnat Zc m = c0 Zc) by (apply (rconst_inj Zc Zc_domain); rewrite X; symmetry; apply (rconst_0 Zc Zc_domain)).
      destruct m as [|n]; [lia|]. exact (SqfProofs.Z_char0 n Y). }
    split.
    + intros Dne P d HP2 Hd. destruct (N.eq_dec d 0) as [e|n]; [exact e|]. exfalso. apply Dne, Dn, Z0.
      destruct (repeated_common v (graw G) P d HP2 Hd ltac:(lia)) as (Q & e & Q1 & Q2 & Q3 & Q4).
      rewrite <- (subres_det Zc Zc_domain v m (m - 1) _ _ ltac:(lia) A B). apply (subres_common Zc Zc_domain Z_cgcd v m (m - 1) _ _ Q e ltac:(lia) A B Q1 Q2 Q3 Q4).
    + intros SQ D0. apply Dn, Z0 in D0. rewrite <- (subres_det Zc Zc_domain v m (m - 1) _ _ ltac:(lia) A B) in D0.
      apply (no_common v (graw G) NzG SQ). apply (subres_zero_common Zc Zc_domain Z_cgcd v (m + (m - 1)) m (m - 1) _ _ (le_n _) ltac:(lia) A B Lz Nd D0).
Qed.
(** A polynomial without the variable: 0. *)
Theorem C48_free : forall G fuel, norm G -> p_degree G v = 0 -> discriminant Zc vo (m_gt S) v compress dcompress ms1 ms2 s1 s2 fuel G = Ok [].
Proof.
  intros G fuel NG E. destruct HP as [Hv HS]. apply lib_vorder_ok in Hv. pose proof (vuniv_ok v) as Hu.
  destruct (up_spec vo Hv S HS Zc HK v Hu ms1 s1 Hm1 Hs1 G NG) as [NG' RG].
  pose proof (up_deg vo Hv S HS Zc HK v Hu ms1 s1 Hm1 Hs1 G NG) as EG.
  destruct (up_deg_spec Zc Zc_domain v (up Zc v ms1 s1 G) NG') as (G1d & _).
  unfold discriminant. cbv zeta. fold (up Zc v ms1 s1). rewrite G1d, EG, E. reflexivity.
Qed.
End Discriminant.
Print Assumptions C48_discriminant.
Print Assumptions C48_free.
(** Example: disc(x^3 + y*x + 1, x) = -4*y^3 - 27. *)
Example C48_example :
  discriminant Zc vless (lex_gt vless) 1%N no_compress (fun _ _ => Ok None) (isort (vuniv 1%N)) (isort vless)
    (isort (lex_gt (vuniv 1%N))) (isort (lex_gt vless)) 9 ex_F = Ok [(re_deg [(2%N, 3)], -4); (mono1, -27)] /\
  0 < p_degree ex_F 1%N < 2 ^ 31.
Proof. split; [vm_compute; reflexivity|]. split; reflexivity. Qed.
