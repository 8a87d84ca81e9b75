(** * The variables of a list of polynomials; polynomials in one variable (Realroot.v). *)
From Coq Require Import Ring_theory Ring Setoid Morphisms Znumtheory.
From Verif Require Import Prelude Coef Spec SpecProofs SpecOps SpecOpsProofs GcdDom GcdPoly GcdMath OrderSpec PairVec PairVecProofs
  Mono MonoProofs MonoStruct MonoStructProofs Heap Poly PolyMulProofs Div PolyDivProofs PolyOps MonoOpsProofs PolyOpsGen PolyOpsProofs
  PolyOps2Proofs ConvertProofs Realroot.
Local Open Scope Z_scope.

Section V.
Context (vo : vorder) (Hvo : vorder_ok vo) (S : monos mono) (HS : S = lexS vo \/ S = grlexS vo).
Notation norm := (normal (mok vo) (m_gt S) Zc).
Notation K := Zc.
Let HD : domain_ok K := Zc_domain.
Let HK : ring_ok K := domain_ring K HD.

Lemma vars_fold_poly (q : poly Z) : forall l, dok vo l -> Forall (fun t => mok vo (fst t)) q ->
  let r := fold_left (fun l t => vars_merge vo l (md (fst t))) q l in
  dok vo r /\ forall v, csum Zc (N.eqb v) r = fold_left (fun d u => Z.max d (zexp (fst u) v)) q (csum Zc (N.eqb v) l).
Proof.
  induction q as [|t q IH]; intros l D Hq; [split; [exact D|reflexivity]|]. inversion Hq as [|? ? Ot Hq']; subst. cbv zeta.
  cbn [fold_left]. rewrite (vars_merge_lcm vo Hvo l (md (fst t)) D (mok_dok vo _ Ot)).
  destruct (lcm_merge_spec vo Hvo l (md (fst t)) D (mok_dok vo _ Ot)) as [D' X].
  destruct (IH _ D' Hq') as [D2 X2]. split; [exact D2|]. intros v. rewrite (X2 v), (X v). reflexivity.
Qed.
Lemma fold_max_le (q : poly Z) v : forall d, fold_left (fun d u => Z.max d (zexp (fst u) v)) q d >= d /\
  forall t, In t q -> zexp (fst t) v <= fold_left (fun d u => Z.max d (zexp (fst u) v)) q d.
Proof.
  induction q as [|u q IH]; intros d; [split; [cbn; lia|intros t []]|]. cbn [fold_left]. destruct (IH (Z.max d (zexp (fst u) v))) as [A B]. split; [lia|].
  intros t [<-|Ht]; [lia|apply B, Ht].
Qed.
Lemma vars_list_spec (F : list (poly Z)) : forall l, dok vo l -> Forall norm F ->
  let r := fold_left (fun l p => fold_left (fun l t => vars_merge vo l (md (fst t))) p l) F l in
  dok vo r /\ forall v, csum Zc (N.eqb v) r >= csum Zc (N.eqb v) l /\ forall f t, In f F -> In t f -> zexp (fst t) v <= csum Zc (N.eqb v) r.
Proof.
  induction F as [|f F IH]; intros l D NF; [split; [exact D|]; intros v; cbn [fold_left]; split; [lia|intros f t []]|].
  cbn [fold_left]. destruct (vars_fold_poly f l D) as [D1 X1]; [apply (Forall_inv NF)|].
  destruct (IH _ D1 (Forall_inv_tail NF)) as [D2 X2]. split; [exact D2|]. intros v. destruct (X2 v) as [A B]. specialize (X1 v). cbv zeta in X1.
  destruct (fold_max_le f v (csum Zc (N.eqb v) l)) as [C1 C2]. rewrite <- X1 in C1, C2. split; [lia|].
  intros g t [<-|Hg] Ht; [specialize (C2 t Ht); lia|apply (B g t Hg Ht)].
Qed.
Lemma one_variable (F : list (poly Z)) : Forall norm F -> (length (get_variables_list vo F) <= 1)%nat ->
  exists v, forall f t w, In f F -> In t f -> w <> v -> zexp (fst t) w = 0.
Proof.
  intros NF L. unfold get_variables_list in L. destruct (vars_list_spec F [] ltac:(split; constructor) NF) as [D X]. cbv zeta in D, X.
  match type of D with dok _ ?X => set (r := X) in * end. exists (match r with [] => 0%N | t :: _ => fst t end). intros f t w Hf Ht Hw.
  destruct (X w) as [_ B]. specialize (B f t Hf Ht).
  assert (csum Zc (N.eqb w) r = 0).
  { destruct r as [|[v e] [|u r']]; [reflexivity| |cbn in L; lia]. cbn [fst] in Hw. cbn [csum fst snd]. destruct (N.eqb_spec w v); [contradiction|reflexivity]. }
  assert (0 <= zexp (fst t) w); [|lia]. apply (zexp_nonneg vo). pose proof (proj1 (Forall_forall _ _) NF f Hf) as Nf.
  apply (norm_in S (mok vo) K f t Nf Ht).
Qed.
Lemma two_variables (F : list (poly Z)) f t v g u w : Forall norm F -> In f F -> In t f -> zexp (fst t) v <> 0 -> In g F -> In u g -> zexp (fst u) w <> 0 -> v <> w ->
  (1 < length (get_variables_list vo F))%nat.
Proof.
  intros NF Hf Ht Hv Hg Hu Hw N. destruct (Nat.lt_ge_cases 1 (length (get_variables_list vo F))) as [L|L]; [exact L|exfalso].
  destruct (one_variable F NF L) as [x X]. destruct (N.eq_dec v x) as [->|n]; [apply Hw, (X g u w Hg Hu); congruence|apply Hv, (X f t v Hf Ht n)].
Qed.
Lemma zexp_free (f : poly Z) v : norm f -> (forall t, In t f -> zexp (fst t) v = 0) <-> vfree K v (graw sm f).
Proof.
  intros N. assert (M1 : monos_ok S (mok vo) sm) by (destruct HS as [-> | ->]; [apply lexS_ok|apply grlexS_ok]; exact Hvo). split.
  - intros H m Hm. destruct (coef_in sm K f m Hm) as (t & Ht & E). rewrite <- (E v). destruct (norm_in S (mok vo) K f t N Ht) as [O _]. rewrite (exp_sm_mok vo _ v O), (H t Ht). reflexivity.
  - intros H t Ht. destruct (norm_in S (mok vo) K f t N Ht) as [O Nz]. specialize (H (sm (fst t))).
    rewrite (in_coef S (mok vo) sm K M1 HK f t (proj1 N) (proj1 (proj2 N)) Ht) in H. specialize (H Nz). rewrite (exp_sm_mok vo _ v O) in H.
    pose proof (zexp_nonneg vo (fst t) v O). lia.
Qed.
End V.
