(** * factorize for polynomials in several variables (Factor.v). *)
From Coq Require Import Ring_theory Ring Setoid Morphisms Znumtheory Sorting.Sorted Permutation.
From Verif Require Import Prelude Coef Spec SpecProofs SpecOps SpecOpsProofs GcdDom GcdPoly GcdMath SqfMath OrderSpec PairVec PairVecProofs
  Mono MonoProofs MonoStruct MonoStructProofs Heap Poly PolyMulProofs Div PolyDivProofs PolyOps MonoOpsProofs PolyOpsGen PolyOpsProofs
  PolyOps2Proofs ConvertProofs PolyOps3Proofs Groebner Zp NumSpec ZpProofs Gcd GcdHom GcdLex GcdZpProofs GcdCont GcdRep GcdTerm GcdProofs GcdMain Sqf SqfProofs
  UGcd UGcdBase UGcdProofs Factor FactorBase FactorUni FactorSqf FactorRen FactorOne.
Local Open Scope Z_scope.

Local Notation K := Zc.
Local Instance HK : ring_ok K := domain_ring K Zc_domain.
Local Notation HD := Zc_domain.
Local Notation HG := Z_cgcd.
Add Ring Rring : (rring K HK) (setoid (req_equiv K) (rring_ext K HK)).
Local Notation unorm := (normal uok (m_gt uniS) K).
Local Notation uraw := (MonoStruct.graw usm).
Local Notation mraw := (MonoStruct.graw sm).
Local Notation ufine := (fine uniS uok).
Local Notation "a == b" := (req K a b) (at level 70).
Local Notation "a %| b" := (rdivides K a b) (at level 70).

Local Notation ex l v := (csum Zc (N.eqb v) l).
Section Vars.
Context (vo : vorder) (Hvo : vorder_ok vo).
Notation poly := (poly Z).
Notation norm := (normal (mok vo) (lex_gt vo) K).
Lemma occ_degree (F : poly) t w : norm F -> In t F -> zexp (fst t) w <> 0 -> p_degree F w <> 0.
Proof.
  intros N Ht Hw E. destruct (p_degree_spec vo Hvo (lexS vo) (or_introl eq_refl) K HK F w N) as (_ & D & _). rewrite E in D.
  specialize (D (sm (fst t)) (in_supp vo Hvo K HD F t N Ht)). destruct (norm_in (lexS vo) (mok vo) K F t N Ht) as [O _].
  rewrite (exp_sm_mok vo _ w O) in D. pose proof (zexp_nonneg vo (fst t) w O). cbn in D. lia.
Qed.
Lemma one_var (F : poly) : good vo F -> is_number F = false -> (length (get_variables vo F) <= 1)%nat ->
  exists v d, get_variables vo F = [(v, d)] /\ vars_P (eq v) F /\ v <> 0%N.
Proof.
  intros G E L. pose proof (proj1 G) as N. destruct (get_variables_spec vo Hvo (lexS vo) K F N) as [_ Sp].
  destruct (not_number_first vo Hvo F G E) as [Nx Ne].
  destruct (first_spec vo Hvo K HD F _ N eq_refl Nx) as (t & r & EF & _ & Fd & Pd & _).
  assert (Ht : In t F) by (rewrite EF; left; reflexivity).
  assert (Occ : p_degree F (first_var F) <> 0) by (apply (occ_degree F t _ N Ht); lia).
  destruct (get_variables vo F) as [|[v d] [|j l]]; [|exists v, d; split; [reflexivity|]|cbn in L; lia].
  - exfalso. apply Occ. symmetry. apply Sp.
  - assert (A : forall w, p_degree F w <> 0 -> v = w).
    { intros w D. rewrite <- Sp in D. cbn in D. destruct (N.eqb_spec w v); [congruence|]. cbn in D. congruence. }
    split; [|rewrite (A _ Occ); exact Nx].
    unfold vars_P. apply Forall_forall. intros u Hu w Hw. apply A, (occ_degree F u w N Hu Hw).
Qed.
Lemma sqf_of v (u : upz) : unorm u -> u <> [] -> sqf_nc (mraw (of_upoly v u)) -> sqf_nc (uraw u).
Proof.
  intros N Ne Sq h Hh. assert (Dh : h %| uraw u) by (destruct Hh as [q Eq]; exists (rmul K q h); rewrite Eq; ring).
  destruct (udvd_rep K HD HG u h N Ne Dh) as (hh & Nh & _ & Eh).
  destruct (Sq (rren 0%N v h)) as [k Ek].
  - destruct Hh as [q Eq]. exists (rren 0%N v q). rewrite (of_ren vo v u N), Eq, !rren_mul. reflexivity.
  - exists k. rewrite <- Eh, <- (ren_back vo v hh Nh), (of_ren vo v hh Nh), Eh, Ek. apply rren_const.
Qed.

(** ** extracting the monomial content *)
Lemma find_ex (l : list (var * Z)) v : dok vo l ->
  match find (fun j => N.eqb (fst j) v) l with Some (w, e) => w = v /\ e = ex l v /\ 0 < e | None => ex l v = 0 end.
Proof.
  intros D. destruct (find (fun j => N.eqb (fst j) v) l) as [[w e]|] eqn:E.
  - apply find_some in E as [Hin E]. cbn [fst] in E. apply N.eqb_eq in E. subst w. split; [reflexivity|]. rewrite (ex_in vo Hvo l v e D Hin). split; [reflexivity|].
    destruct D as [_ P]. rewrite Forall_forall in P. apply (P _ Hin).
  - apply ex_notin. intros Hin. apply in_map_iff in Hin as (j & Ej & Hj). apply (find_none _ _ E) in Hj. cbn in Hj. rewrite Ej, N.eqb_refl in Hj. discriminate.
Qed.
Lemma exs_nonneg l v : dok vo l -> 0 <= ex l v.
Proof.
  intros D. destruct (in_dec N.eq_dec v (map fst l)) as [H|H]; [apply (ex_pos_in vo Hvo l v D) in H; lia|rewrite (ex_notin l v H); lia].
Qed.
Lemma flat_map_ext_in {A B} (f g : A -> list B) l : (forall a, In a l -> f a = g a) -> flat_map f l = flat_map g l.
Proof.
  induction l as [|a l IH]; intros H; [reflexivity|]. cbn [flat_map]. rewrite (H a (or_introl eq_refl)), IH; [reflexivity|]. intros b Hb. apply H. right. exact Hb.
Qed.
(** mapping the exponents of a list of variables *)
Lemma flat_dok (f : var -> Z -> option Z) l : dok vo l -> (forall v d e, f v d = Some e -> 0 < e) ->
  dok vo (flat_map (fun '(v, d) => match f v d with Some e => [(v, e)] | None => [] end) l) /\
  forall w, ex (flat_map (fun '(v, d) => match f v d with Some e => [(v, e)] | None => [] end) l) w =
    if existsb (N.eqb w) (map fst l) then match f w (ex l w) with Some e => e | None => 0 end else 0.
Proof.
  intros D Pf. induction l as [|[v d] l IH]; [split; [exact D|reflexivity]|]. apply dok_cons in D as (A & G & D). cbn [fst snd] in *.
  destruct (IH D) as [D' X]. cbn [flat_map map fst existsb]. set (R := flat_map _ l) in *.
  assert (Gt : Forall (fun u => vo v (fst u) = true) R).
  { rewrite Forall_forall in G |- *. intros u Hu. apply in_flat_map in Hu as ([w e] & Hw & Hu). destruct (f w e); [|contradiction]. destruct Hu as [<-|[]]. apply (G _ Hw). }
  assert (Nv : existsb (N.eqb v) (map fst l) = false).
  { destruct (existsb (N.eqb v) (map fst l)) eqn:E; [|reflexivity]. exfalso. apply existsb_exists in E as (w & Hw & E). apply N.eqb_eq in E. subst w.
    apply in_map_iff in Hw as (u & Eu & Hu). rewrite Forall_forall in G. specialize (G u Hu). rewrite Eu, (vo_irrefl vo Hvo) in G. discriminate. }
  split.
  - destruct (f v d) as [e|] eqn:Ef; cbn [app]; [|exact D']. apply dok_cons. cbn [fst snd]. split; [apply (Pf v d e Ef)|]. split; assumption.
  - intros w. rewrite ex_cons. cbn [fst snd]. destruct (N.eqb_spec w v) as [->|Nw].
    + cbn [orb]. rewrite (ex_before vo Hvo v l G). rewrite Z.add_0_r. specialize (X v). rewrite Nv in X. destruct (f v d) as [e|]; cbn [app]; [|exact X].
      rewrite ex_cons. cbn [fst snd]. rewrite N.eqb_refl, X. lia.
    + cbn [orb]. rewrite Z.add_0_l. rewrite <- X. destruct (f v d) as [e|]; cbn [app]; [|reflexivity]. rewrite ex_cons. cbn [fst snd].
      destruct (N.eqb_spec w v); [congruence|]. lia.
Qed.
Lemma keys_ex l v : dok vo l -> existsb (N.eqb v) (map fst l) = (0 <? ex l v).
Proof.
  intros D. destruct (Z.ltb_spec 0 (ex l v)) as [L|L].
  - apply (ex_pos_in vo Hvo l v D) in L. apply existsb_exists. exists v. split; [exact L|apply N.eqb_refl].
  - destruct (existsb (N.eqb v) (map fst l)) eqn:E; [|reflexivity]. apply existsb_exists in E as (w & Hw & E). apply N.eqb_eq in E. subst w.
    apply (ex_pos_in vo Hvo l v D) in Hw. lia.
Qed.
Lemma min_merge_ok l m : dok vo l -> mok vo m -> dok vo (min_merge l m) /\ forall v, ex (min_merge l m) v = Z.min (ex l v) (zexp m v).
Proof.
  intros D O. pose proof (mok_dok vo m O) as Dm. unfold min_merge.
  set (f := fun v d => match find (fun j => N.eqb (fst j) v) (md m) with Some (_, e) => if 0 <? d then Some (Z.min d e) else None | None => None end).
  assert (E : flat_map (fun '(v, d) => match find (fun j => N.eqb (fst j) v) (md m) with Some (_, e) => [(v, Z.min d e)] | None => [] end) l =
    flat_map (fun '(v, d) => match f v d with Some e => [(v, e)] | None => [] end) l).
  { apply flat_map_ext_in. intros [v d] Hin. unfold f. destruct (find _ (md m)) as [[w e]|]; [|reflexivity].
    destruct D as [_ P]. rewrite Forall_forall in P. specialize (P _ Hin). cbn [snd] in P. destruct (Z.ltb_spec 0 d); [reflexivity|lia]. }
  rewrite E. destruct (flat_dok f l D) as [D' X].
  { intros v d e H. unfold f in H. pose proof (find_ex (md m) v Dm) as Fx. destruct (find _ (md m)) as [[w e']|]; [|discriminate].
    destruct (Z.ltb_spec 0 d); [|discriminate]. injection H as <-. lia. }
  split; [exact D'|]. intros v. rewrite X, (keys_ex l v D). pose proof (exs_nonneg l v D) as P1. unfold f. pose proof (find_ex (md m) v Dm) as Fx. fold (zexp m v) in Fx.
  destruct (find _ (md m)) as [[w e']|]; destruct (Z.ltb_spec 0 (ex l v)); unfold zexp in *; lia.
Qed.
Lemma min_degs_ok (F : poly) : norm F -> dok vo (min_degs F) /\ (forall v t, In t F -> ex (min_degs F) v <= zexp (fst t) v).
Proof.
  intros N. destruct F as [|t r]; [split; [split; constructor|intros v t []]|].
  assert (Ok_ : forall u, In u (t :: r) -> mok vo (fst u)) by (intros u Hu; apply (norm_in (lexS vo) (mok vo) K _ u N Hu)).
  cbn [min_degs]. assert (G : forall l0, dok vo l0 -> Forall (fun u => mok vo (fst u)) r ->
    dok vo (fold_left (fun l u => min_merge l (fst u)) r l0) /\
    (forall v, ex (fold_left (fun l u => min_merge l (fst u)) r l0) v <= ex l0 v) /\
    (forall v u, In u r -> ex (fold_left (fun l u => min_merge l (fst u)) r l0) v <= zexp (fst u) v)).
  { clear -Hvo. induction r as [|u r IH]; intros l0 D O; cbn [fold_left]; [split; [exact D|]; split; [lia|intros v u []]|].
    destruct (min_merge_ok l0 (fst u) D (Forall_inv O)) as [D1 X1]. destruct (IH _ D1 (Forall_inv_tail O)) as (A & B & C). split; [exact A|].
    split; [intros v; specialize (B v); rewrite X1 in B; lia|]. intros v w [<-|Hw]; [specialize (B v); rewrite X1 in B; lia|apply C, Hw]. }
  destruct (G (md (fst t))) as (A & B & C); [apply mok_dok, Ok_; left; reflexivity|apply Forall_forall; intros u Hu; apply Ok_; right; exact Hu|].
  set (R := fold_left _ r (md (fst t))) in *.
  assert (E : filter (fun j => negb (snd j =? 0)) R = R).
  { clear -A. destruct A as [_ P]. induction R as [|j R IH]; [reflexivity|]. cbn [filter]. pose proof (Forall_inv P) as P1. cbn beta in P1.
    destruct (Z.eqb_spec (snd j) 0); [lia|]. cbn [negb]. rewrite (IH (Forall_inv_tail P)). reflexivity. }
  rewrite E. split; [exact A|]. intros v u [<-|Hu]; [apply B|apply C, Hu].
Qed.
Lemma sub_mono_ok l m : dok vo l -> mok vo m -> (forall v, ex l v <= zexp m v) -> mok vo (sub_mono l m) /\ forall v, zexp (sub_mono l m) v = zexp m v - ex l v.
Proof.
  intros D O Le. pose proof (mok_dok vo m O) as Dm.
  set (g := fun v => match find (fun j : var * Z => N.eqb (fst j) v) l with Some (_, e) => e | None => 0 end).
  set (f := fun v d => if d >? g v then Some (d - g v) else None).
  assert (E : sub_mono l m = re_deg (flat_map (fun '(v, d) => match f v d with Some e => [(v, e)] | None => [] end) (md m))).
  { unfold sub_mono. f_equal. apply flat_map_ext_in. intros [v d] Hin. unfold f. fold (g v). cbv zeta. destruct (d >? g v); reflexivity. }
  rewrite E. destruct (flat_dok f (md m) Dm) as [D' X]; [intros v d e H; unfold f in H; destruct (Z.gtb_spec d (g v)); [|discriminate]; injection H as <-; lia|].
  split; [apply mok_re_deg, D'|]. intros v. unfold zexp at 1. cbn [md re_deg]. rewrite X, (keys_ex _ v Dm). fold (zexp m v).
  assert (Eg : g v = ex l v) by (unfold g; pose proof (find_ex l v D) as Fx; destruct (find _ l) as [[w e]|]; lia).
  unfold f. rewrite Eg. specialize (Le v). pose proof (exs_nonneg l v D). destruct (Z.ltb_spec 0 (zexp m v)); [|lia].
  destruct (Z.gtb_spec (zexp m v) (ex l v)); lia.
Qed.

Lemma var_pow v n : rpow K (mraw [(mono_var v, 1)]) n == [([(v, N.of_nat n)], 1)].
Proof.
  induction n as [|n IH]; cbn [rpow].
  - apply (req_single K); [|reflexivity]. intros w. cbn. destruct (N.eqb v w); reflexivity.
  - rewrite IH. cbn. apply (req_single K); [|reflexivity]. intros w. cbn. destruct (N.eqb v w); lia.
Qed.
Lemma vars_prod (ms : list (var * Z)) : Forall (fun j => 0 < snd j) ms ->
  mprod sm (map (fun j => ([(mono_var (fst j), 1)], Z.to_nat (snd j))) ms) == [(map (fun j => (fst j, Z.to_N (snd j))) ms, 1)].
Proof.
  induction 1 as [|[v d] ms P _ IH]; cbn [map mprod fold_right fst snd]; [reflexivity|]. fold (mprod sm (map (fun j : var * Z => ([(mono_var (fst j), 1)], Z.to_nat (snd j))) ms)).
  rewrite IH, var_pow. cbn. apply (req_single K); [|reflexivity]. intros w. cbn. rewrite Z_nat_N. destruct (N.eqb v w); reflexivity.
Qed.
Lemma extract_mono_ok srt (F gr : poly) ms : good vo F -> F <> [] -> extract_mono vo srt F = (gr, ms) ->
  good vo gr /\ gr <> [] /\ Forall (fun j => fst j <> 0%N /\ 0 < snd j) ms /\
  mraw F == rmul K (mprod sm (map (fun j => ([(mono_var (fst j), 1)], Z.to_nat (snd j))) ms)) (mraw gr).
Proof.
  intros G Ne E. pose proof (proj1 G) as N. destruct (min_degs_ok F N) as [D Le]. unfold extract_mono in E. destruct (min_degs F) as [|j0 l0] eqn:Em.
  { injection E as <- <-. split; [exact G|]. split; [exact Ne|]. split; [constructor|]. cbn [map mprod fold_right]. ring. }
  set (l := j0 :: l0) in *. clearbody l. clear Em. injection E as Eg <-.
  set (F' := map (fun t => (sub_mono l (fst t), snd t)) F) in *.
  assert (Sub : forall t, In t F -> mok vo (sub_mono l (fst t)) /\ forall v, zexp (sub_mono l (fst t)) v = zexp (fst t) v - ex l v).
  { intros t Ht. apply sub_mono_ok; [exact D|apply (norm_in (lexS vo) (mok vo) K _ t N Ht)|intros v; apply Le, Ht]. }
  pose proof (mok_re_deg vo l D) as Og.
  assert (Mul : forall t, In t F -> fst t = mono_mul vo (sub_mono l (fst t)) (re_deg l)).
  { intros t Ht. destruct (Sub t Ht) as [Os Zs]. apply (mok_ext vo Hvo); [apply (norm_in (lexS vo) (mok vo) K _ t N Ht)|apply (mok_mul vo Hvo); assumption|].
    intros v. rewrite (zexp_mul vo). rewrite Zs. unfold zexp at 3. cbn [md re_deg]. lia. }
  assert (N' : norm F').
  { destruct N as (A & B & C). split; [|split].
    - unfold all_ok, F'. rewrite Forall_map. apply Forall_forall. intros t Ht. apply (Sub t Ht).
    - unfold F'. assert (H : forall F0 : poly, incl F0 F -> desc (lex_gt vo) F0 -> desc (lex_gt vo) (map (fun t => (sub_mono l (fst t), snd t)) F0)).
      { intros F0 I0 D0. induction F0 as [|t F0 IH]; [constructor|]. apply (desc_cons (lex_gt vo)) in D0 as [D0 H0]. cbn [map].
        apply (desc_cons (lex_gt vo)). split; [apply IH; [intros u Hu; apply I0; right; exact Hu|exact D0]|].
        rewrite Forall_map. rewrite Forall_forall in H0 |- *. intros u Hu. cbn [fst]. specialize (H0 u Hu).
        assert (Ht : In t F) by (apply I0; left; reflexivity). assert (Hu' : In u F) by (apply I0; right; exact Hu).
        destruct (Sub t Ht) as [Ot _]. destruct (Sub u Hu') as [Ou _].
        assert (HO : order_on (mok vo) (lex_gt vo)) by exact (ms_order (lexS vo) (mok vo) sm (lexS_ok vo Hvo)).
        assert (Of : mok vo (fst t)) by (unfold all_ok in A; rewrite Forall_forall in A; apply A, Ht).
        assert (Oh : mok vo (fst u)) by (unfold all_ok in A; rewrite Forall_forall in A; apply A, Hu').
        destruct (gt_total _ _ HO _ _ Ot Ou) as [X|[X|X]]; [|exact X|].
        - exfalso. rewrite (Mul t Ht), (Mul u Hu'), X in H0. rewrite (gt_irrefl _ _ HO) in H0; [discriminate|]. apply (mok_mul vo Hvo); assumption.
        - exfalso. apply (ms_gt_mul (lexS vo) (mok vo) sm (lexS_ok vo Hvo) _ _ (re_deg l)) in X; try assumption. change (m_mul (lexS vo)) with (mono_mul vo) in X.
          rewrite <- (Mul t Ht), <- (Mul u Hu') in X. change (m_gt (lexS vo)) with (lex_gt vo) in X.
          pose proof (gt_trans _ _ HO _ _ _ Of Oh Of H0 X) as Y. rewrite (gt_irrefl _ _ HO _ Of) in Y. discriminate. }
      apply H; [apply incl_refl|exact B].
    - unfold F'. apply Forall_map. exact C. }
  assert (gr = F') as ->.
  { rewrite <- Eg. apply (normalization_id (mok vo) (lex_gt vo) mono_eqb K (ms_order (lexS vo) (mok vo) sm (lexS_ok vo Hvo)) (ms_eq (lexS vo) (mok vo) sm (lexS_ok vo Hvo)) HK (srt Z) F' N'). }
  split; [split; [exact N'|]|].
  { unfold nz0, vars_P, F'. rewrite Forall_map. apply Forall_forall. intros t Ht v Hv. cbn [fst] in Hv. rewrite (proj2 (Sub t Ht)) in Hv.
    destruct G as [_ G]. unfold nz0, vars_P in G. rewrite Forall_forall in G. apply (G t Ht). pose proof (Le v t Ht). pose proof (exs_nonneg l v D). lia. }
  split; [destruct F; [congruence|discriminate]|].
  assert (Pl : Forall (fun j => 0 < snd j) l) by apply D. split.
  { rewrite Forall_forall in Pl |- *. intros [v d] Hj. split; [|apply (Pl _ Hj)]. cbn [fst]. destruct F as [|t F]; [congruence|].
    destruct G as [_ G]. apply Forall_inv in G. apply G. specialize (Le v t (or_introl eq_refl)). rewrite (ex_in vo Hvo l v d D Hj) in Le.
    specialize (Pl _ Hj). cbn [snd] in Pl. lia. }
  rewrite (vars_prod l Pl). unfold F'. clear -Mul Sub Og Hvo. induction F as [|t F IH]; [cbn; reflexivity|]. cbn [map MonoStruct.graw fst snd].
  transitivity (radd [(sm (fst t), snd t)] (mraw F)); [reflexivity|].
  transitivity (rmul K [(map (fun j => (fst j, Z.to_N (snd j))) l, 1)] (radd [(sm (sub_mono l (fst t)), snd t)] (mraw (map (fun t => (sub_mono l (fst t), snd t)) F)))); [|reflexivity].
  transitivity (radd (rmul K [(map (fun j => (fst j, Z.to_N (snd j))) l, 1)] [(sm (sub_mono l (fst t)), snd t)]) 
    (rmul K [(map (fun j => (fst j, Z.to_N (snd j))) l, 1)] (mraw (map (fun t => (sub_mono l (fst t), snd t)) F)))); [|ring].
  apply (radd_proper K HK); [|apply IH; intros u Hu; [apply Sub|apply Mul]; right; exact Hu].
  cbn [rmul flat_map map app fst snd cmul Zc]. apply (req_single K); [|rewrite Z.mul_1_l; reflexivity].
  rewrite (Mul t (or_introl eq_refl)) at 1. intros v. rewrite exp_app.
  destruct (Sub t (or_introl eq_refl)) as [Os _]. rewrite (exp_sm_mok vo _ v) by (apply (mok_mul vo Hvo); assumption).
  rewrite (exp_sm_mok vo _ v Os), (zexp_mul vo). change (map (fun j => (fst j, Z.to_N (snd j))) l) with (sm (re_deg l)).
  rewrite (exp_sm_mok vo _ v Og). pose proof (zexp_nonneg vo _ v Os). pose proof (zexp_nonneg vo _ v Og). lia.
Qed.
End Vars.
