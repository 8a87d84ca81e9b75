(** * Lex polynomials in normal form: degrees, occurring variables and substitution, in the form needed by
      the gcd proofs. *)
From Coq Require Import Ring_theory Ring Setoid Morphisms.
From Verif Require Import Prelude Coef Spec SpecProofs SpecOps SpecOpsProofs GcdDom GcdPoly GcdMath OrderSpec PairVec PairVecProofs
  Mono MonoProofs MonoStruct MonoStructProofs Heap Poly PolyMulProofs Div PolyDivProofs PolyOps MonoOpsProofs PolyOpsGen PolyOpsProofs
  PolyOps2Proofs PolyOps3Proofs Gcd GcdHom.
Local Open Scope Z_scope.

Section Lex.
Context (vo : vorder) (Hvo : vorder_ok vo).
Context {C : Type} (K : coefs C) (HD : domain_ok K) (HG : cgcd_ok K).
Let HK : ring_ok K := domain_ring K HD.
Local Existing Instance HK.
Add Ring Kring : (ring_laws K HK).
Add Ring Rring : (rring K HK) (setoid (req_equiv K) (rring_ext K HK)).
Notation S := (lexS vo).
Notation gt := (lex_gt vo).
Notation norm := (normal (mok vo) gt K).
Notation graw := (graw sm).
Notation poly := (poly C).
Notation "a == b" := (req K a b) (at level 70).
Notation "a %| b" := (rdivides K a b) (at level 70).
Let M1 := lexS_ok vo Hvo.
Let HO := ms_order S (mok vo) sm M1.

Lemma nin (p : poly) t : norm p -> In t p -> mok vo (fst t) /\ snd t <> c0 K.
Proof. apply (norm_in S (mok vo) K). Qed.
Lemma nz_iff (p : poly) : norm p -> (p <> [] <-> ~ graw p == r0).
Proof.
  intros N. split.
  - intros H E. apply H. apply (gnormal_req S (mok vo) sm K M1 HK); [exact N|split; [constructor|split; constructor]|exact E].
  - intros H ->. apply H. reflexivity.
Qed.
Lemma in_supp (p : poly) t : norm p -> In t p -> coef K (graw p) (sm (fst t)) <> c0 K.
Proof. intros N H. rewrite (in_coef S (mok vo) sm K M1 HK p t (proj1 N) (proj1 (proj2 N)) H). apply (nin p t N H). Qed.
Lemma supp_in (p : poly) m : norm p -> coef K (graw p) m <> c0 K -> exists t, In t p /\ forall v, exp m v = Z.to_N (zexp (fst t) v).
Proof.
  intros N H. apply (norm_supp S (mok vo) sm K M1 HK p m N) in H as (t & Ht & E). exists t. split; [exact Ht|]. intros v.
  rewrite <- (E v). apply (exp_sm_mok vo). apply (nin p t N Ht).
Qed.
Lemma deg_le_zexp (p : poly) x d : norm p -> 0 <= d -> (deg_le K (graw p) x (Z.to_N d) <-> Forall (fun t => zexp (fst t) x <= d) p).
Proof.
  intros N Hd. split.
  - intros L. apply Forall_forall. intros t Ht. specialize (L _ (in_supp p t N Ht)).
    destruct (nin p t N Ht) as [O _]. rewrite (exp_sm_mok vo _ x O) in L. pose proof (zexp_nonneg vo (fst t) x O). lia.
  - intros L m Hm. apply (supp_in p m N) in Hm as (t & Ht & E). rewrite (E x). rewrite Forall_forall in L. specialize (L t Ht). cbv beta in L. lia.
Qed.
Lemma deg_is_zexp (p : poly) x d : norm p -> 0 <= d -> Forall (fun t => zexp (fst t) x <= d) p -> Exists (fun t => zexp (fst t) x = d) p ->
  deg_is K (graw p) x (Z.to_N d).
Proof.
  intros N Hd L E. split; [apply deg_le_zexp; assumption|]. right. apply Exists_exists in E as (t & Ht & E).
  exists (sm (fst t)). split; [apply in_supp; assumption|]. rewrite (exp_sm_mok vo); [rewrite E; reflexivity|apply (nin p t N Ht)].
Qed.
Lemma vfree_zexp (p : poly) x : norm p -> (vfree K x (graw p) <-> Forall (fun t => zexp (fst t) x = 0) p).
Proof.
  intros N. split.
  - intros L. apply Forall_forall. intros t Ht. specialize (L _ (in_supp p t N Ht)).
    destruct (nin p t N Ht) as [O _]. rewrite (exp_sm_mok vo _ x O) in L. pose proof (zexp_nonneg vo (fst t) x O). lia.
  - intros L m Hm. apply (supp_in p m N) in Hm as (t & Ht & E). rewrite (E x). rewrite Forall_forall in L. rewrite (L t Ht). reflexivity.
Qed.

(** the first variable *)
Lemma first_spec (p : poly) x : norm p -> first_var p = x -> x <> 0%N ->
  exists t r, p = t :: r /\ topp vo x p /\ first_deg p = zexp (fst t) x /\ 0 < first_deg p /\
    Forall (fun u => zexp (fst u) x <= first_deg p) p /\ deg_is K (graw p) x (Z.to_N (first_deg p)).
Proof.
  intros N E Nx. destruct p as [|t r]; [cbn in E; congruence|]. exists t, r. split; [reflexivity|].
  assert (Em : md (fst t) <> []). { intros Z. cbn [first_var] in E. unfold mfirst_var in E. rewrite Z in E. congruence. }
  pose proof (first_top vo Hvo K r t N Em) as T. rewrite E in T. split; [exact T|].
  destruct (nin (t :: r) t N (or_introl eq_refl)) as [Ot _].
  assert (Ed : first_deg (t :: r) = zexp (fst t) x /\ 0 < first_deg (t :: r)).
  { cbn [first_var] in E. cbn [first_deg]. unfold mfirst_var in E. unfold mfirst_deg. apply mok_dok in Ot as Od.
    destruct (md (fst t)) as [|[w e] l] eqn:El; [congruence|]. subst w. pose proof Od as Od'. apply dok_cons in Od' as (Pe & _). split; [|exact Pe].
    unfold zexp. rewrite El. symmetry. apply (ex_in vo Hvo ((x, e) :: l) x e Od). left. reflexivity. }
  destruct Ed as [Ed Pd]. split; [exact Ed|]. split; [exact Pd|].
  pose proof (topp_head vo Hvo K x t r N (Forall_inv T)) as [_ L]. rewrite Ed. split; [exact L|].
  apply deg_is_zexp; [exact N|lia|exact L|left; reflexivity].
Qed.
Lemma topp_occ (p : poly) x t w : norm p -> topp vo x p -> In t p -> zexp (fst t) w <> 0 -> w = x \/ vo x w = true.
Proof.
  intros N T Ht Hw. destruct (nin p t N Ht) as [O _]. apply (topm_keys vo Hvo x (fst t)); [exact O| |].
  - unfold topp in T. rewrite Forall_forall in T. apply T, Ht.
  - pose proof (zexp_nonneg vo (fst t) w O). lia.
Qed.

(** divisors have smaller degrees and no new variables *)
Lemma dvd_deg D P x d : D %| P -> ~ P == r0 -> deg_is K P x d -> deg_le K D x d.
Proof.
  intros [E HE] NP HP.
  assert (NE : ~ E == r0) by (intros Z; apply NP; rewrite HE, Z; reflexivity).
  assert (ND : ~ D == r0) by (intros Z; apply NP; rewrite HE, Z; ring).
  destruct (deg_exists K HD E x) as [a Ha]. destruct (deg_exists K HD D x) as [b Hb].
  pose proof (deg_is_mul K HD HG E D x a b NE ND Ha Hb) as M.
  assert (X : (d = a + b)%N).
  { apply (deg_is_unique K P x); [exact HP|]. destruct M as [A B]. split.
    - intros m Hm. apply A. rewrite <- (HE m). exact Hm.
    - destruct B as [B|(m & Hm & B)]; [left; exact B|right]. exists m. rewrite (HE m). auto. }
  apply (deg_le_weak K D x b d); [lia|apply Hb].
Qed.
Lemma dvd_vars (D P : poly) Pr : norm D -> norm P -> P <> [] -> graw D %| graw P -> vars_P Pr P -> (forall w, {Pr w} + {~ Pr w}) -> vars_P Pr D.
Proof.
  intros ND NP Pne [E HE] VP Dec. apply Forall_forall. intros t Ht w Hw. destruct (Dec w) as [y|n]; [exact y|].
  exfalso. apply Hw. assert (F : vfree K w (graw D)).
  { apply (free_div K HD HG w (graw P) E); [exact HE|apply nz_iff; assumption|]. apply vfree_zexp; [exact NP|].
    apply Forall_forall. intros u Hu. destruct (Z.eq_dec (zexp (fst u) w) 0) as [e|ne]; [exact e|]. exfalso. apply n. unfold vars_P in VP. rewrite Forall_forall in VP. apply (VP u Hu w ne). }
  apply (vfree_zexp D w ND) in F. rewrite Forall_forall in F. apply F, Ht.
Qed.

(** ** Substitution *)
Lemma msubc_mdrop rho x m : rho x = None -> msubc K rho (mdrop x m) = msubc K rho m.
Proof.
  intros Hx. unfold msubc. induction m as [|[w e] m IH]; [reflexivity|]. cbn [mdrop filter fst]. destruct (N.eqb_spec w x) as [->|n]; cbn [negb].
  - fold (mdrop x m). rewrite IH. cbn [meval]. rewrite Hx. assert (P1 : forall k, cpow K (c1 K) k = c1 K) by (induction k as [|k IHk]; cbn [cpow]; [reflexivity|rewrite IHk; ring]).
    rewrite P1. ring.
  - cbn [meval]. fold (mdrop x m). rewrite IH. reflexivity.
Qed.
Lemma exp_msub (rho : var -> option C) m x : rho x = None -> exp (msub rho m) x = exp m x.
Proof.
  intros Hx. induction m as [|[w e] m IH]; [reflexivity|]. cbn [msub filter fst]. fold (msub rho m). destruct (rho w) eqn:E.
  - rewrite IH. cbn [exp]. destruct (N.eqb_spec w x) as [->|n]; [congruence|]. lia.
  - cbn [exp]. rewrite IH. reflexivity.
Qed.
Lemma mdrop_msub (rho : var -> option C) m x : mdrop x (msub rho m) = msub rho (mdrop x m).
Proof.
  induction m as [|[w e] m IH]; [reflexivity|]. unfold mdrop, msub in *. cbn [filter fst]. destruct (rho w) eqn:E, (N.eqb_spec w x) as [->|n]; cbn [negb filter fst]; rewrite ?E; try (destruct (N.eqb_spec w x); [contradiction|]); try (rewrite N.eqb_refl); cbn [negb]; rewrite ?IH; reflexivity.
Qed.
Lemma rsubst_rcoeff rho x n p : rho x = None -> rcoeff K x n (rsubst K rho p) == rsubst K rho (rcoeff K x n p).
Proof.
  intros Hx. induction p as [|[m c] p IH]; [reflexivity|].
  unfold rsubst, rcoeff in *. rewrite !rlin_cons, !rlin_app.
  apply (radd_proper K HK); [|exact IH]. cbn [map fst snd]. rewrite rlin_cons. cbn [rlin flat_map]. rewrite exp_msub by exact Hx.
  destruct (N.eqb (exp m x) n); cbn [map app flat_map fst snd]; [|reflexivity].
  apply (req_single K); [rewrite mdrop_msub; reflexivity|]. cbn [fst snd]. rewrite msubc_mdrop by exact Hx. ring.
Qed.
Lemma deg_le_rcoeff p x d : deg_le K p x d <-> forall n, (d < n)%N -> rcoeff K x n p == r0.
Proof.
  split.
  - intros L n Hn. apply (rcoeff_lt K HD). intros m Hm. specialize (L m Hm). lia.
  - intros H m Hm. destruct (N.le_gt_cases (exp m x) d) as [L|L]; [exact L|]. exfalso. apply Hm.
    specialize (H _ L (mdrop x m)). rewrite (coef_rcoeff K HK), exp_mdrop, N.eqb_refl in H. cbn [N.eqb Spec.coef r0] in H. rewrite <- H.
    apply (coef_proper K HK). intros w. cbn [exp]. rewrite !exp_mdrop.
    destruct (N.eqb_spec x w), (N.eqb_spec w x); subst; try congruence; lia.
Qed.
Lemma rsubst_deg rho x p d : rho x = None -> deg_le K p x d -> deg_le K (rsubst K rho p) x d.
Proof.
  intros Hx. rewrite !deg_le_rcoeff. intros H n Hn. rewrite (rsubst_rcoeff rho x n p Hx). rewrite (H n Hn). reflexivity.
Qed.
End Lex.
