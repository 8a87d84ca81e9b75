(** * C46: squarefreebasis of a list of integer polynomials (polynomial_gcd.hh 159-243).

    As in Props_Gcd.v: [ps] is any sequence of primes, [rnd] any sequence of evaluation points, the theorems are about
    every value returned. *)
From Coq Require Import Ring_theory Ring Setoid Morphisms Znumtheory.
From Verif Require Import Prelude Coef Spec SpecProofs SpecOps SpecOpsProofs GcdDom GcdPoly GcdMath OrderSpec PairVec PairVecProofs
  Mono MonoProofs MonoStruct MonoStructProofs Heap Poly PolyMulProofs Div PolyDivProofs PolyOps MonoOpsProofs PolyOpsGen PolyOpsProofs
  PolyOps2Proofs ConvertProofs PolyOps3Proofs Groebner Zp NumSpec ZpProofs Gcd GcdHom GcdLex GcdZpProofs GcdCont GcdRep GcdTerm GcdProofs GcdMain
  SqfMath Sqf SqfProofs Library LibraryProofs SortProofs Props_Poly Props_Div Props_Ops Props_Gcd SqfBasis SqfBasisProofs.
Local Open Scope Z_scope.

(** Specification. *)
Definition a_constant (h : rpoly Z) : Prop := exists k, h == rconst k.
Definition no_common_nonconstant (p q : rpoly Z) : Prop := forall h, h %| p -> h %| q -> a_constant h.
(** the multiplicity recorded for input k (0 if k is not in the list) *)
Fixpoint recorded (k : nat) (ix : list (nat * nat)) : nat :=
  match ix with [] => 0%nat | (j, e) :: ix' => if Nat.eqb j k then e else recorded k ix' end.
(** the product of all the elements, each to the multiplicity recorded for input k *)
Fixpoint product_for (k : nat) (B : list (poly Z * list (nat * nat))) : rpoly Z :=
  match B with [] => rconst 1 | (q, ix) :: B' => rmul Zc (rpow Zc (graw sm q) (recorded k ix)) (product_for k B') end.
(** B is a squarefree basis of F; [valid] is the invariant of the polynomials of the order in use *)
Definition is_squarefree_basis (valid : poly Z -> Prop) (F : list (poly Z)) (B : list (poly Z * list (nat * nat))) : Prop :=
  (forall q ix, In (q, ix) B -> valid q /\ q <> [] /\ squarefree_nonconstant (graw sm q) /\ NoDup (map fst ix) /\
     ix <> [] /\ forall k e, In (k, e) ix -> (1 <= e)%nat /\ exists f, nth_error F k = Some f /\ f <> []) /\
  ForallOrdPairs (fun t u => no_common_nonconstant (graw sm (fst t)) (graw sm (fst u))) B /\
  forall k f, nth_error F k = Some f -> f <> [] -> exists c, c <> 0 /\ graw sm f == rmul Zc (rconst c) (product_for k B).

Local Instance HKz : ring_ok Zc := domain_ring Zc Zc_domain.
Add Ring Rring : (rring Zc HKz) (setoid (req_equiv Zc) (rring_ext Zc HKz)).
Lemma recorded_mult k ix : NoDup (map fst ix) -> recorded k ix = mult k ix.
Proof.
  induction ix as [|[j e] ix IH]; intros N; [reflexivity|]. cbn [map fst] in N. inversion N as [|? ? N1 N2]; subst. cbn [recorded].
  change ((j, e) :: ix) with ([(j, e)] ++ ix). rewrite mult_app. destruct (Nat.eqb_spec j k) as [->|H].
  - rewrite mult_one, mult_notin by exact N1. lia.
  - rewrite mult_other by congruence. apply IH, N2.
Qed.
Lemma product_for_bprod k B : Forall (fun t => NoDup (map fst (snd t))) B -> product_for k B == bprod k B.
Proof.
  induction 1 as [|[q ix] B N F IH]; [reflexivity|]. cbn [product_for bprod fold_right fst snd]. cbn [snd] in N. rewrite (recorded_mult k ix N), IH. reflexivity.
Qed.

Section Statements.
Context (vo : vorder) (HL : lib_vorder vo).
Variable msrt : list (var * Z) -> list (var * Z).
Variable srt : forall C : Type, Mono.poly C -> Mono.poly C.
Variable mcomp qcomp : poly Z -> poly Z -> outcome (option (poly Z)).
Variable rcomp : poly Z -> poly Z -> outcome (option (poly Z * poly Z)).
Variable zcomp : forall p (Hp : modulus p), Mono.poly (zpc p) -> Mono.poly (zpc p) -> outcome (option (Mono.poly (zpc p) * Mono.poly (zpc p))).
Variable ps : nat -> pmod.
Variable rnd : path -> nat -> Z.
Context (Env : gcd_env vo msrt srt mcomp qcomp rcomp zcomp ps).
Let Hvo : vorder_ok vo := lib_vorder_ok vo HL.

Theorem C46_squarefree_basis : forall fuel pa F B, (forall f, In f F -> npoly vo f /\ vfree Zc 0%N (graw sm f)) ->
  squarefreebasis vo msrt srt mcomp qcomp rcomp zcomp ps rnd fuel pa F = Ok B ->
  is_squarefree_basis (npoly vo) F B /\ forall q ix, In (q, ix) B -> vfree Zc 0%N (graw sm q).
Proof.
  intros fuel pa F B HF E.
  assert (GF : Forall (good vo) F) by (apply Forall_forall; intros f Hf; destruct (HF f Hf); apply good_of; assumption).
  assert (B0 : basis_of vo [] []) by (split; [constructor|]; split; [constructor|]; intros [|k] f; discriminate).
  destruct (basis_loop_ok vo Hvo _ _ _ _ _ _ _ _ Env fuel pa F [] [] B GF B0 E) as (H1 & H2 & H3). cbn [app] in H1, H3.
  rewrite Forall_forall in H1. split; [split; [|split]|].
  - intros q ix Hq. destruct (H1 _ Hq) as (A1 & A2 & A3 & A4 & A5 & A6). cbn [fst snd] in *.
    split; [apply A1|]. split; [exact A2|]. split; [exact A3|]. split; [exact A4|]. split; [exact A5|].
    rewrite Forall_forall in A6. intros k e Hk. apply (A6 _ Hk).
  - unfold raws in H2. apply ForallOrdPairs_map in H2. exact H2.
  - intros k f Hk Hf. destruct (H3 k f Hk Hf) as (c & Nc & Ec). exists c. split; [exact Nc|]. rewrite product_for_bprod; [exact Ec|].
    apply Forall_forall. intros t Ht. apply (H1 t Ht).
  - intros q ix Hq. destruct (H1 _ Hq) as ([A1 V] & _). cbn [fst] in *. apply (vfree_zexp vo Hvo Zc Zc_domain q 0%N A1).
    unfold nz0, vars_P in V. rewrite Forall_forall in *. intros t Ht. specialize (V t Ht 0%N). destruct (Z.eq_dec (zexp (fst t) 0%N) 0) as [e|n]; [exact e|destruct (V n eq_refl)].
Qed.
End Statements.
Print Assumptions C46_squarefree_basis.

Section Others.
Context (vo2 : vorder) (S2 : monos mono) (HP : lib_poly vo2 S2).
Variable msrt : list (var * Z) -> list (var * Z).
Variable srt : forall C : Type, Mono.poly C -> Mono.poly C.
Variable mcomp qcomp : poly Z -> poly Z -> outcome (option (poly Z)).
Variable rcomp : poly Z -> poly Z -> outcome (option (poly Z * poly Z)).
Variable zcomp : forall p (Hp : modulus p), Mono.poly (zpc p) -> Mono.poly (zpc p) -> outcome (option (Mono.poly (zpc p) * Mono.poly (zpc p))).
Variable ps : nat -> pmod.
Variable rnd : path -> nat -> Z.
Variable msrt2 : list (var * Z) -> list (var * Z).
Variable srt2 : poly Z -> poly Z.
Context (Env : gcd_env vless msrt srt mcomp qcomp rcomp zcomp ps).
Context (Hm2 : msort_ok vo2 msrt2) (Hs2 : sort_ok (mok vo2) (m_gt S2) srt2).
Notation npoly2 := (normal (mok vo2) (m_gt S2) Zc).

Theorem C46_squarefree_basis_other_orders : forall fuel pa F B, (forall f, In f F -> npoly2 f /\ vfree Zc 0%N (graw sm f)) ->
  squarefreebasis_any vo2 (m_gt S2) msrt srt mcomp qcomp rcomp zcomp ps rnd msrt2 srt2 fuel pa F = Ok B ->
  is_squarefree_basis npoly2 F B /\ forall q ix, In (q, ix) B -> vfree Zc 0%N (graw sm q).
Proof.
  intros fuel pa F B HF E. unfold squarefreebasis_any in E.
  destruct (squarefreebasis _ _ _ _ _ _ _ _ _ _ _ _) as [B'| | |] eqn:EB; try discriminate. cbn [obind] in E. injection E as <-.
  assert (HT : forall f, In f F -> npoly vless (to_lex msrt srt f) /\ vfree Zc 0%N (graw sm (to_lex msrt srt f)) /\ graw sm (to_lex msrt srt f) == graw sm f).
  { intros f Hf. destruct (HF f Hf) as [N V]. apply (to_lex_ok vo2 S2 HP _ _ _ _ _ _ _ Env f N V). }
  destruct HP as [Hv HS]. assert (HS2 : monos_ok S2 (mok vo2) sm) by (apply lib_vorder_ok in Hv; destruct HS as [->| ->]; [apply lexS_ok|apply grlexS_ok]; exact Hv).
  assert (HF' : forall f, In f (map (to_lex msrt srt) F) -> npoly vless f /\ vfree Zc 0%N (graw sm f)).
  { intros f Hf. apply in_map_iff in Hf as (g & <- & Hg). destruct (HT g Hg) as (A & C & _). auto. }
  destruct (C46_squarefree_basis vless lv_less _ _ _ _ _ _ _ _ Env fuel pa _ B' HF' EB) as [(H1 & H2 & H3) H4].
  set (fl := fun t : poly Z * occurrences => (from_lex vo2 (m_gt S2) msrt2 srt2 (fst t), snd t)).
  assert (FL : forall t, In t B' -> npoly2 (fst (fl t)) /\ graw sm (fst (fl t)) == graw sm (fst t)).
  { intros [q ix] Ht. destruct (H1 q ix Ht) as [Nq _]. apply (from_lex_ok vo2 S2 (conj Hv HS) msrt2 srt2 Hm2 Hs2 q Nq). }
  assert (Nz : forall f, In f F -> f <> [] -> to_lex msrt srt f <> []).
  { intros f Hf Ne X. apply Ne. apply (graw_nil_req S2 (mok vo2) sm Zc HS2 HKz f (proj1 (HF f Hf))). rewrite <- (proj2 (proj2 (HT f Hf))), X. reflexivity. }
  assert (Pf : forall k B0, incl B0 B' -> product_for k (map fl B0) == product_for k B0).
  { intros k B0. induction B0 as [|[q ix] B0 IH]; intros HI; [reflexivity|]. cbn [map product_for]. unfold fl at 1. cbn [fst snd].
    rewrite IH by (intros x Hx; apply HI; right; exact Hx). pose proof (proj2 (FL (q, ix) (HI _ (or_introl eq_refl)))) as X. cbn [fl fst] in X. rewrite (rpow_req _ _ (recorded k ix) X). reflexivity. }
  split; [split; [|split]|].
  - intros q ix Hq. apply in_map_iff in Hq as ([q0 ix0] & Eq & H0). injection Eq as <- <-. cbn [fst snd] in *.
    destruct (H1 q0 ix0 H0) as (A1 & A2 & A3 & A4 & A5 & A6). destruct (FL _ H0) as [N X]. cbn [fl fst] in N, X.
    split; [exact N|]. split.
    { intros Y. apply (proj1 (nz_iff vless (lib_vorder_ok vless lv_less) Zc Zc_domain q0 A1) A2). rewrite <- X, Y. reflexivity. }
    split. { intros h D. apply A3. apply (rdivides_proper Zc Zc_domain _ _ (reflexivity _) _ _ X). exact D. }
    split; [exact A4|]. split; [exact A5|]. intros k e Hk. destruct (A6 k e Hk) as (B1 & f & B2 & B3). split; [exact B1|].
    rewrite nth_error_map in B2. match type of B2 with option_map _ ?X = _ => destruct X as [g|] eqn:Eg end; cbn [option_map] in B2; [|discriminate B2]. exists g. split; [reflexivity|]. intros ->. assert (Ef : f = to_lex msrt srt []) by congruence. apply B3. rewrite Ef.
    destruct (HT [] (nth_error_In _ _ Eg)) as (C1 & _ & C3). destruct (to_lex msrt srt []) as [|t r] eqn:Et; [reflexivity|]. exfalso.
    assert (Nr : t :: r <> []) by discriminate. exact (proj1 (nz_iff vless (lib_vorder_ok vless lv_less) Zc Zc_domain _ C1) Nr C3).
  - change (ForallOrdPairs (fun t u => no_common_nonconstant (graw sm (fst t)) (graw sm (fst u))) (map fl B')). clear - H2 FL.
    induction H2 as [|t l Ht Co IH]; cbn [map]; constructor.
    + rewrite Forall_map. rewrite Forall_forall in *. intros u Hu h D1 D2. apply (Ht u Hu).
      * apply (rdivides_proper Zc Zc_domain _ _ (reflexivity _) _ _ (proj2 (FL t (or_introl eq_refl)))). exact D1.
      * apply (rdivides_proper Zc Zc_domain _ _ (reflexivity _) _ _ (proj2 (FL u (or_intror Hu)))). exact D2.
    + apply IH. intros u Hu. apply FL. right. exact Hu.
  - intros k f Hk Hf. pose proof (nth_error_In _ _ Hk) as Hin. destruct (H3 k (to_lex msrt srt f)) as (c & Nc & Ec).
    + rewrite nth_error_map, Hk. reflexivity.
    + apply Nz; assumption.
    + exists c. split; [exact Nc|]. change (graw sm f == rmul Zc (rconst c) (product_for k (map fl B'))). rewrite (Pf k B' (incl_refl _)).
      rewrite <- (proj2 (proj2 (HT f Hin))). exact Ec.
  - intros q ix Hq. apply in_map_iff in Hq as ([q0 ix0] & Eq & H0). injection Eq as <- <-. cbn [fst snd] in *.
    pose proof (H4 q0 ix0 H0) as V. destruct (FL _ H0) as [_ X]. cbn [fl fst] in X. intros m Hm. apply V. intros Y. apply Hm. rewrite (X m). exact Y.
Qed.
End Others.
Print Assumptions C46_squarefree_basis_other_orders.

(** ** The elements need not be non-constant: for 1 - x, x - 1 the result contains the constant -1. *)
Definition ex_basis := squarefreebasis vless (isort vless) (fun C => isort (lex_gt vless)) none2 none2 none3 none4 ex_ps ex_rnd.
Definition ex_p : poly Z := [(mono_var 1, -1); (mono1, 1)].
Definition ex_q : poly Z := [(mono_var 1, 1); (mono1, -1)].
Definition ex_r : poly Z := [(Mono [(1%N, 2)] 2, 1); (mono1, -1)].
Lemma ex_pqr_ok : forall f, In f [ex_p; ex_q; ex_r] -> npoly vless f /\ vfree Zc 0%N (graw sm f).
Proof.
  assert (Hl : vorder_ok vless) by (apply lib_vorder_ok; constructor).
  assert (Np : npoly vless ex_p) by (repeat split; repeat constructor; discriminate).
  assert (Nq : npoly vless ex_q) by (repeat split; repeat constructor; discriminate).
  assert (Nr : npoly vless ex_r) by (repeat split; repeat constructor; discriminate).
  intros f [<-|[<-|[<-|[]]]]; (split; [assumption|]); apply (vfree_zexp vless Hl Zc Zc_domain _ 0%N); try assumption; repeat constructor.
Qed.
Theorem C46_nonconstant_refuted : exists F B q ix, (forall f, In f F -> npoly vless f /\ vfree Zc 0%N (graw sm f)) /\ ex_basis 20 [] F = Ok B /\
  In (q, ix) B /\ a_constant (graw sm q).
Proof.
  exists [ex_p; ex_q]. eexists. exists [(mono1, -1)], [(0%nat, 1%nat)].
  split; [intros f Hf; apply ex_pqr_ok; destruct Hf as [<-|[<-|[]]]; cbn; auto|]. split; [vm_compute; reflexivity|].
  split; [left; reflexivity|]. exists (-1). reflexivity.
Qed.
Print Assumptions C46_nonconstant_refuted.
Example C46_example : exists B, ex_basis 20 [] [ex_r; ex_q] = Ok B /\
  B = [([(mono_var 1, 1); (mono1, 1)], [(0%nat, 1%nat)]); (ex_q, [(0%nat, 1%nat); (1%nat, 1%nat)])] /\
  is_squarefree_basis (npoly vless) [ex_r; ex_q] B.
Proof.
  eexists. assert (E : ex_basis 20 [] [ex_r; ex_q] = Ok [([(mono_var 1, 1); (mono1, 1)], [(0%nat, 1%nat)]); (ex_q, [(0%nat, 1%nat); (1%nat, 1%nat)])]) by (vm_compute; reflexivity).
  split; [exact E|]. split; [reflexivity|].
  assert (HF : forall f, In f [ex_r; ex_q] -> npoly vless f /\ vfree Zc 0%N (graw sm f)) by (intros f Hf; apply ex_pqr_ok; destruct Hf as [<-|[<-|[]]]; cbn; auto).
  unfold ex_basis in E. exact (proj1 (C46_squarefree_basis vless lv_less (isort vless) (fun C => isort (lex_gt vless)) none2 none2 none3 none4 ex_ps ex_rnd ex_env 20 [] [ex_r; ex_q] _ HF E)).
Qed.
