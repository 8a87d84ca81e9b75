(** * Univariate polynomials (variable 0) and polynomials in one variable v (for Factor.v). *)
From Coq Require Import Ring_theory Ring Setoid Morphisms Znumtheory Sorting.Sorted Permutation.
From Verif Require Import Prelude Coef Spec SpecProofs SpecOps SpecOpsProofs GcdDom GcdPoly GcdMath SqfMath OrderSpec PairVec PairVecProofs
  Mono MonoProofs MonoStruct MonoStructProofs Heap Poly PolyMulProofs Div PolyDivProofs PolyOps MonoOpsProofs PolyOpsGen PolyOpsProofs
  PolyOps2Proofs ConvertProofs PolyOps3Proofs Groebner Zp NumSpec ZpProofs Gcd GcdHom GcdLex GcdZpProofs GcdCont GcdRep GcdTerm GcdProofs GcdMain Sqf SqfProofs
  UGcd UGcdBase UGcdProofs Factor FactorBase FactorUni FactorSqf.
Local Open Scope Z_scope.

Local Notation K := Zc.
Local Instance HK : ring_ok K := domain_ring K Zc_domain.
Local Notation HD := Zc_domain.
Local Notation HG := Z_cgcd.
Add Ring Rring : (rring K HK) (setoid (req_equiv K) (rring_ext K HK)).
Local Notation unorm := (normal uok (m_gt uniS) K).
Local Notation uraw := (MonoStruct.graw usm).
Local Notation mraw := (MonoStruct.graw sm).
Local Notation "a == b" := (req K a b) (at level 70).
Local Notation "a %| b" := (rdivides K a b) (at level 70).

(** ** renaming: w^e becomes v^e, the other variables become 1 *)
Definition rren (w v : var) : rpoly Z -> rpoly Z := rlin K (fun m => [([(v, exp m w)], 1)]).
#[global] Instance rren_proper w v : Proper (req K ==> req K) (rren w v).
Proof. intros p q E. apply (rlin_req K HK); [|exact E]. intros a b Hab. apply (req_single K); [rewrite (Hab w); reflexivity|reflexivity]. Qed.
Lemma rren_mul w v p q : rren w v (rmul K p q) == rmul K (rren w v p) (rren w v q).
Proof.
  apply (rlin_mul K HK). intros m1 m2. cbn. apply (req_single K); [|reflexivity]. intros u. rewrite exp_app. cbn [exp]. destruct (N.eqb v u); lia.
Qed.
Lemma rren_const w v c : rren w v (rconst c) == rconst c.
Proof. unfold rren, rlin, rconst. cbn. apply (req_single K); [|lia]. intros u. cbn. destruct (N.eqb v u); reflexivity. Qed.
Lemma rren_1 w v : rren w v (r1 K) == r1 K. Proof. apply rren_const. Qed.
Lemma rren_opp w v p : rren w v (ropp K p) == ropp K (rren w v p).
Proof.
  assert (E : forall x, ropp K x == rmul K (rconst (-1)) x) by (intros x; change (rconst (-1)) with (ropp K (r1 K)); ring).
  rewrite (E p), (E (rren w v p)), rren_mul, rren_const. reflexivity.
Qed.
Lemma rren_pow w v p n : rren w v (rpow K p n) == rpow K (rren w v p) n.
Proof. induction n as [|n IH]; cbn [rpow]; [apply rren_1|]. rewrite rren_mul, IH. reflexivity. Qed.
Lemma rren_dvd w v p q : p %| q -> rren w v p %| rren w v q.
Proof. intros [h E]. exists (rren w v h). rewrite E, rren_mul. reflexivity. Qed.
Lemma rren_pm w v p q : pm p q -> pm (rren w v p) (rren w v q).
Proof. intros [E|E]; [left|right]; rewrite E; [reflexivity|apply rren_opp]. Qed.

(** products with multiplicities *)
Definition mprod {M} (s : M -> smono) (l : list (list (M * Z) * nat)) : rpoly Z :=
  fold_right (fun t a => rmul K (rpow K (MonoStruct.graw s (fst t)) (snd t)) a) (r1 K) l.
Lemma mprod_app {M} (s : M -> smono) l l' : mprod s (l ++ l') == rmul K (mprod s l) (mprod s l').
Proof. unfold mprod. induction l as [|t l IH]; cbn [app fold_right]; [ring|]. rewrite IH. ring. Qed.
Lemma mprod_perm {M} (s : M -> smono) l l' : Permutation l l' -> mprod s l == mprod s l'.
Proof. unfold mprod. induction 1; cbn [fold_right]; [reflexivity|rewrite IHPermutation; reflexivity|ring|]. etransitivity; eassumption. Qed.
Lemma mprod_graws l : mprod sm l = rprod (graws l).
Proof. unfold mprod, rprod, graws. induction l as [|t l IH]; cbn [map fold_right]; [reflexivity|]. rewrite IH. reflexivity. Qed.
Lemma mprod_same {M} (s : M -> smono) l e : mprod s (map (fun p => (p, e)) l) == rpow K (lprod s l) e.
Proof.
  unfold mprod, lprod. induction l as [|p l IH]; cbn [map fold_right fst snd].
  - induction e as [|e IHe]; cbn [rpow]; [reflexivity|]. rewrite <- IHe. ring.
  - rewrite IH, <- rpow_mul_. reflexivity.
Qed.

Section Ren.
Context (vo : vorder) (Hvo : vorder_ok vo) (v : var).
Notation norm := (normal (mok vo) (lex_gt vo) K).
Lemma of_ren u : unorm u -> mraw (of_upoly v u) == rren 0%N v (uraw u).
Proof.
  intros N. unfold rren, of_upoly. symmetry. destruct N as (A & _). induction u as [|[e c] u IH]; [reflexivity|]. inversion A as [|? ? Oe A']; subst. cbn [fst] in Oe.
  cbn [map MonoStruct.graw fst snd]. rewrite (rlin_cons K). cbn [map fst snd cmul Zc].
  transitivity (radd [(sm (umono v e), c)] (MonoStruct.graw sm (map (fun t => (umono v (fst t), snd t)) u))); [|reflexivity].
  rewrite <- (IH A'). change (@app (smono * Z)) with (@radd Z). apply (radd_proper K HK); [|reflexivity]. apply (req_single K); [|lia]. rewrite (sm_umono vo v e Oe). rewrite exp_usm. reflexivity.
Qed.
Lemma ren_back u : unorm u -> rren v 0%N (mraw (of_upoly v u)) == uraw u.
Proof.
  intros N. unfold rren, of_upoly. destruct N as (A & _). induction u as [|[e c] u IH]; [reflexivity|]. inversion A as [|? ? Oe A']; subst. cbn [fst] in Oe.
  cbn [map MonoStruct.graw fst snd]. rewrite (rlin_cons K). cbn [map fst snd cmul Zc].
  transitivity (radd [(usm e, c)] (MonoStruct.graw usm u)); [|reflexivity].
  rewrite <- (IH A'). change (@app (smono * Z)) with (@radd Z). apply (radd_proper K HK); [|reflexivity]. apply (req_single K); [|lia].
  assert (X : meq (sm (umono v e)) [(v, Z.to_N e)]) by apply (sm_umono vo v e Oe). rewrite (X v). cbn [exp]. rewrite N.eqb_refl. unfold usm. intros u0. cbn [exp]. destruct (N.eqb 0 u0); lia.
Qed.
(** a normal polynomial in the variable v only *)
Lemma only_v usrt p : norm p -> vars_P (eq v) p -> of_upoly v (to_upoly K usrt p) = p /\ unorm (to_upoly K usrt p).
Proof.
  intros N V. apply (of_to_upoly K HK vo Hvo (lexS vo) (or_introl eq_refl) v usrt p N). intros t w Ht Hw.
  unfold vars_P in V. rewrite Forall_forall in V. destruct (Z.eq_dec (zexp (fst t) w) 0) as [E|E]; [exact E|]. exfalso. apply Hw. symmetry. apply (V t Ht w E).
Qed.
Lemma of_norm u : unorm u -> norm (of_upoly v u).
Proof. intros N. apply (of_upoly_spec K vo Hvo (lexS vo) (or_introl eq_refl) v u N). Qed.
Lemma of_vars u : unorm u -> vars_P (eq v) (of_upoly v u).
Proof.
  intros (A & _). unfold vars_P, of_upoly. rewrite Forall_map. eapply Forall_impl; [|exact A]. intros t Ht w Hw. cbn [fst] in Hw.
  destruct (umono_spec vo v (fst t) Ht) as [_ X]. rewrite (X w) in Hw. destruct (N.eqb_spec w v); [congruence|]. contradiction.
Qed.
Lemma of_good u : v <> 0%N -> unorm u -> good vo (of_upoly v u).
Proof.
  intros Nv N. split; [apply of_norm, N|]. unfold nz0. pose proof (of_vars u N) as V. unfold vars_P in *. eapply Forall_impl; [|exact V].
  intros t Ht w Hw. rewrite <- (Ht w Hw). exact Nv.
Qed.
Lemma of_nil (u : upz) : of_upoly v u = [] <-> u = [].
Proof. destruct u; split; intros H; try reflexivity; discriminate. Qed.
Lemma of_number u : unorm u -> u <> [] -> is_number (of_upoly v u) = true -> exists k, u = [(0, k)].
Proof.
  intros (A & _) H E. destruct u as [|[e c] [|]]; [congruence| |discriminate]. apply Forall_inv in A. cbn [fst] in A. unfold uok in A.
  exists c. cbn in E. unfold mempty in E. destruct (umono_md v e A) as [[-> _]|[_ X]]; [reflexivity|]. rewrite X in E. discriminate.
Qed.
Lemma of_number' (k : Z) : is_number (of_upoly v [(0, k)]) = true.
Proof. reflexivity. Qed.
Lemma of_first u : unorm u -> u <> [] -> is_number (of_upoly v u) = false -> first_var (of_upoly v u) = v.
Proof.
  intros (A & D & _) H E. destruct u as [|[e c] r]; [congruence|]. pose proof (Forall_inv A) as Oe. cbn [fst] in Oe. cbn [of_upoly map first_var fst]. unfold mfirst_var.
  destruct (umono_md v e Oe) as [[-> _]|[_ ->]]; [|reflexivity]. exfalso. destruct r as [|u r]; [discriminate|].
  unfold desc in D. cbn [map] in D. apply StronglySorted_inv in D as [_ D]. apply Forall_inv in D. cbn [m_gt uniS fst] in D. apply Forall_inv_tail, Forall_inv in A. unfold uok in A. cbn beta in A. apply Z.gtb_lt in D. lia.
Qed.
(** primitivity *)
Lemma prim_of u : unorm u -> u <> [] -> is_prim K v (mraw (of_upoly v u)) -> is_prim K 0%N (uraw u).
Proof.
  intros N H P d Fd Dd. pose proof (proj1 (unz K HD u N) H) as Nz. destruct Dd as [q Eq].
  assert (V : inV K [] d).
  { pose proof (inV_div K HD HG _ _ q d Eq Nz (uinV K u)) as V. intros m x Hm Hx. destruct (V m x Hm Hx) as [<-|[]]. destruct (Hx (Fd m Hm)). }
  pose proof (inV_nil K HD d V) as Ed. set (c := coef K d []) in *.
  assert (U : rconst c %| r1 K).
  { apply P; [apply (vfree_const K)|]. exists (rren 0%N v q). rewrite (of_ren u N), Eq, rren_mul. rewrite Ed at 1. rewrite rren_const. reflexivity. }
  destruct U as [h Eh]. exists h. rewrite Ed. exact Eh.
Qed.
Lemma of_prim u : unorm u -> u <> [] -> is_prim K 0%N (uraw u) -> is_prim K v (mraw (of_upoly v u)).
Proof.
  intros N H P d Fd Dd. pose proof (of_norm u N) as N'. assert (H' : of_upoly v u <> []) by (rewrite of_nil; exact H).
  pose proof (proj1 (nz_iff vo Hvo K HD _ N') H') as Nz. destruct Dd as [q Eq].
  assert (V : inV K [] d).
  { assert (V0 : inV K [v] (mraw (of_upoly v u))).
    { intros m x Hm Hx. apply (supp_in vo Hvo K HD _ m N') in Hm as (t & Ht & E). left. pose proof (of_vars u N) as V. unfold vars_P in V. rewrite Forall_forall in V.
      apply (V t Ht). rewrite (E x) in Hx. intros X. rewrite X in Hx. apply Hx. reflexivity. }
    pose proof (inV_div K HD HG _ _ q d Eq Nz V0) as V. intros m x Hm Hx. destruct (V m x Hm Hx) as [<-|[]]. destruct (Hx (Fd m Hm)). }
  pose proof (inV_nil K HD d V) as Ed. set (c := coef K d []) in *.
  assert (U : rconst c %| r1 K).
  { apply P; [apply (vfree_const K)|]. exists (rren v 0%N q). rewrite <- (ren_back u N), Eq, rren_mul. rewrite Ed at 1. rewrite rren_const. reflexivity. }
  destruct U as [h Eh]. exists h. rewrite Ed. exact Eh.
Qed.
Lemma of_sqf u : unorm u -> u <> [] -> sqf_nc (uraw u) -> sqf_nc (mraw (of_upoly v u)).
Proof.
  intros N H P h Dd. pose proof (of_norm u N) as N'. assert (H' : of_upoly v u <> []) by (rewrite of_nil; exact H).
  pose proof (proj1 (nz_iff vo Hvo K HD _ N') H') as Nz.
  destruct (represent (lexS vo) (mok vo) sm (lexS_ok vo Hvo) K HD (full_mono vo Hvo) h) as (hh & Nh & Eh).
  assert (Dh : mraw hh %| mraw (of_upoly v u)).
  { destruct Dd as [q Eq]. exists (rmul K q h). rewrite Eq, Eh. ring. }
  assert (V : vars_P (eq v) hh) by (apply (dvd_vars vo Hvo K HD HG hh (of_upoly v u)); auto; [apply of_vars, N|apply N.eq_dec]).
  destruct (only_v (fun x => x) hh Nh V) as [E1 N1]. set (w := to_upoly K (fun x => x) hh) in *.
  destruct (P (uraw w)) as [k Ek].
  - destruct Dd as [q Eq]. exists (rren v 0%N q). rewrite <- (ren_back u N), Eq, !rren_mul, <- Eh, <- E1, !(ren_back w N1). reflexivity.
  - exists k. rewrite <- Eh, <- E1, (of_ren w N1), Ek. apply rren_const.
Qed.
End Ren.
