(** * Reduction, S-polynomials and normal forms: proofs. *)
From Coq Require Import Ring Sorting.Sorted Permutation Setoid Morphisms.
From Verif Require Import Prelude Coef Spec SpecProofs SpecOps SpecOpsProofs OrderSpec PairVec PairVecProofs Mono MonoProofs
  MonoStruct MonoStructProofs Heap HeapProofs HeapMulProofs Poly PolyMulProofs Groebner AF.
Local Open Scope Z_scope.

Section GP.
Context {C : Type} (K : coefs C) (HK : ring_ok K) (HF : field_ok K).
Context (vo : vorder) (Hv : vorder_ok vo) (S : monos mono) (HS : S = lexS vo \/ S = grlexS vo).
Add Ring Kring : (ring_laws K HK).
Add Ring Rring : (rring K HK) (setoid (req_equiv K) (rring_ext K HK)).
Notation ok := (mok vo).
Notation gt := (m_gt S).
Notation norm := (normal ok gt K).
Notation R := (graw sm).
Notation req := (req K).
Notation rmul := (rmul K).
Notation dv := (cquo K).
Notation "0c" := (c0 K).
Notation "1c" := (c1 K).
Let HD : domain_ok K := field_domain K HF.

Lemma HM : monos_ok S ok sm.
Proof. destruct HS as [->| ->]; [apply lexS_ok|apply grlexS_ok]; exact Hv. Qed.
Lemma mmul : m_mul S = mono_mul vo. Proof. destruct HS as [->| ->]; reflexivity. Qed.
Lemma mdiv : m_div S = is_divexact vo. Proof. destruct HS as [->| ->]; reflexivity. Qed.
Notation mul := (m_mul S).
Notation dvd a b := (mdivides (sm a) (sm b)).

(** ** monomials *)
Definition qt (L a : mono) : mono := snd (m_div S L a).
Lemma qt_spec L a : ok L -> ok a -> dvd a L -> ok (qt L a) /\ mul (qt L a) a = L.
Proof. intros HL Ha H. destruct (ms_div S ok sm HM L a HL Ha) as [A B]. apply B, A, H. Qed.
Lemma dvd_mul a t : ok a -> ok t -> dvd a (mul t a).
Proof. intros Ha Ht v. rewrite (exp_ms_mul S ok sm HM) by assumption. lia. Qed.
Lemma dvd_trans a b c : dvd a b -> dvd b c -> dvd a c.
Proof. intros H1 H2 v. specialize (H1 v). specialize (H2 v). lia. Qed.
Lemma dvd_refl a : dvd a a. Proof. intros v. lia. Qed.
Lemma mul_inj t s a : ok t -> ok s -> ok a -> mul t a = mul s a -> t = s.
Proof.
  intros Ht Hs Ha E. apply (ms_inj S ok sm HM); [assumption..|]. intros v.
  pose proof (f_equal (fun m => exp (sm m) v) E) as E'. cbn beta in E'. rewrite !(exp_ms_mul S ok sm HM) in E' by assumption. lia.
Qed.
Lemma qt_unique L a t : ok a -> ok t -> mul t a = L -> qt L a = t.
Proof.
  intros Ha Ht <-. destruct (qt_spec (mul t a) a) as [A B]; [apply (ms_mul_ok S ok sm HM); assumption|exact Ha|apply dvd_mul; assumption|].
  apply (mul_inj _ _ a); assumption.
Qed.
Lemma dvd_antisym a b : ok a -> ok b -> dvd a b -> dvd b a -> a = b.
Proof. intros Ha Hb H1 H2. apply (ms_inj S ok sm HM); [assumption..|]. intros v. specialize (H1 v). specialize (H2 v). lia. Qed.
Lemma gt_ge_mul t a : ok t -> ok a -> mul t a = a \/ gt (mul t a) a = true.
Proof.
  intros Ht Ha. destruct (mono_eqb t (m_one S)) eqn:E.
  - apply mono_eqb_iff in E. subst t. left. rewrite (ms_mul_comm S ok sm HM) by (try assumption; apply (ms_one_ok S ok sm HM)).
    apply (ms_mul_1_r S ok sm HM), Ha.
  - right. assert (t <> m_one S) by (intros X; apply mono_eqb_iff in X; congruence).
    pose proof (ms_gt_mul S ok sm HM t (m_one S) a Ht (ms_one_ok S ok sm HM) Ha (ms_gt_one S ok sm HM t Ht H)) as G.
    rewrite (ms_mul_comm S ok sm HM (m_one S) a), (ms_mul_1_r S ok sm HM) in G by (try assumption; apply (ms_one_ok S ok sm HM)). exact G.
Qed.
Lemma gtt a b c : ok a -> ok b -> ok c -> gt a b = true -> gt b c = true -> gt a c = true.
Proof. apply (gt_trans ok gt (ms_order S ok sm HM)). Qed.
Lemma msup_mul vs a b : ok a -> ok b -> msup vs (sm a) -> msup vs (sm b) -> msup vs (sm (mul a b)).
Proof.
  intros Ha Hb A B v E. rewrite (exp_ms_mul S ok sm HM) in E by assumption.
  destruct (N.eq_dec (exp (sm a) v) 0) as [e|e]; [apply B; lia|apply A, e].
Qed.
Lemma msup_dvd vs a b : dvd a b -> msup vs (sm b) -> msup vs (sm a).
Proof. intros D H v E. apply H. specialize (D v). lia. Qed.
Lemma msup_mul_l vs t a : ok t -> ok a -> msup vs (sm (mul t a)) -> msup vs (sm t).
Proof. intros Ht Ha. apply msup_dvd. rewrite (ms_mul_comm S ok sm HM) by assumption. apply dvd_mul; assumption. Qed.

(** ** coefficients *)
Lemma fmul_cancel a b c : c <> 0c -> cmul K a c = cmul K b c -> a = b.
Proof.
  intros Hc E. assert (cmul K (csub K a b) c = 0c) as Z0. { transitivity (csub K (cmul K a c) (cmul K b c)); [ring|]. rewrite E. ring. }
  destruct (domain_integral K HD _ _ Z0) as [H|H]; [|contradiction]. transitivity (cadd K (csub K a b) b); [ring|]. rewrite H. ring.
Qed.
Lemma fdiv c b : b <> 0c -> dv c b = cmul K c (dv 1c b).
Proof.
  intros Hb. apply (fmul_cancel _ _ b Hb). rewrite (field_quo K HF) by exact Hb.
  transitivity (cmul K c (cmul K (dv 1c b) b)); [|ring]. rewrite (field_quo K HF) by exact Hb. ring.
Qed.
Lemma fdiv_nz c b : b <> 0c -> c <> 0c -> dv c b <> 0c.
Proof. intros Hb Hc E. apply Hc. rewrite <- (field_quo K HF c b Hb), E. ring. Qed.
Lemma fdiv_self b : b <> 0c -> dv b b = 1c.
Proof. intros Hb. apply (fmul_cancel _ _ b Hb). rewrite (field_quo K HF) by exact Hb. ring. Qed.
Lemma fdiv_1 b : dv b 1c = b.
Proof. pose proof (domain_nontrivial K HD) as H. transitivity (cmul K (dv b 1c) 1c); [ring|]. apply (field_quo K HF), H. Qed.

(** ** spans *)
Inductive span (X : rpoly C -> Prop) : rpoly C -> Prop :=
| sp_0 : span X r0
| sp_in x : X x -> span X x
| sp_add p q : span X p -> span X q -> span X (radd p q)
| sp_eq p q : req p q -> span X p -> span X q.
Lemma span_bind X Y p : span X p -> (forall x, X x -> span Y x) -> span Y p.
Proof.
  intros H I. induction H as [|x Hx|p q _ IHp _ IHq|p q E _ IH];
    [apply sp_0|apply I, Hx|apply sp_add; assumption|apply (sp_eq _ _ _ E IH)].
Qed.
Lemma span_map X Y (a : rpoly C) p : span X p -> (forall x, X x -> span Y (rmul a x)) -> span Y (rmul a p).
Proof.
  intros H I. induction H as [|x Hx|p q _ IHp _ IHq|p q E _ IH].
  - apply sp_eq with r0; [ring|apply sp_0].
  - apply I, Hx.
  - apply sp_eq with (radd (rmul a p) (rmul a q)); [ring|apply sp_add; assumption].
  - apply sp_eq with (rmul a p); [rewrite E; reflexivity|exact IH].
Qed.

(** [T m p]: the polynomial m*p; [D L a b]: L/lm(a)*a - L/lm(b)*b. *)
Definition T (m : mono) (p : poly C) : rpoly C := rmul (rmono K (sm m)) (R p).
Definition D (L : mono) (a b : poly C) : rpoly C := rsub K (T (qt L (lm a)) a) (T (qt L (lm b)) b).

Definition genU (G : list (poly C)) (L : mono) (x : rpoly C) : Prop :=
  exists g m c, In g G /\ ok m /\ gt L (mul m (lm g)) = true /\ req x (rmul (rconst c) (T m g)).
Definition genP (Ps : list (poly C * poly C)) (L : mono) (x : rpoly C) : Prop :=
  exists a b c, In (a, b) Ps /\ dvd (lm a) L /\ dvd (lm b) L /\ req x (rmul (rconst c) (D L a b)).
Definition W G Ps L : rpoly C -> Prop := span (fun x => genU G L x \/ genP Ps L x).
Definition U G L : rpoly C -> Prop := W G [] L.
Definition gok (g : poly C) : Prop := norm g /\ g <> [].

Lemma lm_ok g : gok g -> ok (lm g).
Proof. intros [(H & _) Hn]. destruct g; [congruence|]. exact (Forall_inv H). Qed.

Lemma W_0 G Ps L : W G Ps L r0. Proof. apply sp_0. Qed.
Lemma W_add G Ps L p q : W G Ps L p -> W G Ps L q -> W G Ps L (radd p q). Proof. apply sp_add. Qed.
Lemma W_eq G Ps L p q : req p q -> W G Ps L p -> W G Ps L q. Proof. apply sp_eq. Qed.
Lemma rconst_mul c d : req (rmul (rconst c) (rconst d)) (rconst (cmul K c d)).
Proof. reflexivity. Qed.
Lemma W_scale G Ps L c p : W G Ps L p -> W G Ps L (rmul (rconst c) p).
Proof.
  intros H. apply (span_map _ _ _ _ H). intros x [(g & m & d & Hg & Hm & Hgt & E)|(a & b & d & Hab & Ha & Hb & E)]; apply sp_in.
  - left. exists g, m, (cmul K c d). repeat (split; [assumption|]). rewrite E, <- rconst_mul. ring.
  - right. exists a, b, (cmul K c d). repeat (split; [assumption|]). rewrite E, <- rconst_mul. ring.
Qed.
Lemma ropp_scale p : req (rmul (rconst (copp K 1c)) p) (ropp K p).
Proof.
  transitivity (rmul (ropp K (r1 K)) p); [|ring]. apply (rmul_proper_r K HK) || reflexivity.
Qed.
Lemma W_opp G Ps L p : W G Ps L p -> W G Ps L (ropp K p).
Proof. intros H. apply W_eq with (1 := ropp_scale p). apply W_scale, H. Qed.
Lemma W_sub G Ps L p q : W G Ps L p -> W G Ps L q -> W G Ps L (rsub K p q).
Proof. intros H1 H2. apply W_add; [exact H1|apply W_opp, H2]. Qed.
Lemma W_mono G G' Ps Ps' L p : incl G G' -> incl Ps Ps' -> W G Ps L p -> W G' Ps' L p.
Proof.
  intros I J H. apply (span_bind _ _ _ H). intros x [(g & m & d & Hg & X)|(a & b & d & Hab & X)]; apply sp_in.
  - left. exists g, m, d. split; [apply I, Hg|exact X].
  - right. exists a, b, d. split; [apply J, Hab|exact X].
Qed.
Lemma U_W G Ps L p : U G L p -> W G Ps L p.
Proof. apply W_mono; [apply incl_refl|intros x []]. Qed.
Lemma U_le G L L' p : ok L -> ok L' -> Forall gok G -> gt L' L = true \/ L' = L -> U G L p -> U G L' p.
Proof.
  intros HL HL' HG [H|E] X; [|subst; exact X]. apply (span_bind _ _ _ X).
  intros x [(g & m & d & Hg & Hm & Hgt & E)|(a & b & d & [] & _)]; apply sp_in. left. exists g, m, d.
  repeat (split; [assumption|]). split; [|exact E]. apply gtt with L; try assumption. apply (ms_mul_ok S ok sm HM); [exact Hm|].
  apply lm_ok. rewrite Forall_forall in HG. apply HG, Hg.
Qed.

Lemma T_T t m p : ok t -> ok m -> req (rmul (rmono K (sm t)) (T m p)) (T (mul t m) p).
Proof.
  intros Ht Hm. unfold T. transitivity (rmul (rmul (rmono K (sm t)) (rmono K (sm m))) (R p)); [ring|].
  rewrite <- (rmono_app K HK). rewrite (req_single K (sm t ++ sm m) (sm (mul t m)) 1c 1c); [reflexivity| |reflexivity].
  intros v. rewrite (exp_ms_mul S ok sm HM) by assumption. apply exp_app.
Qed.
Lemma qt_mul t L a : ok t -> ok L -> ok a -> dvd a L -> qt (mul t L) a = mul t (qt L a).
Proof.
  intros Ht HL Ha H. destruct (qt_spec L a HL Ha H) as [A B]. apply qt_unique; [exact Ha|apply (ms_mul_ok S ok sm HM); assumption|].
  rewrite <- (ms_mul_assoc S ok sm HM) by assumption. rewrite B. reflexivity.
Qed.
Lemma D_mul t L a b : ok t -> ok L -> gok a -> gok b -> dvd (lm a) L -> dvd (lm b) L ->
  req (rmul (rmono K (sm t)) (D L a b)) (D (mul t L) a b).
Proof.
  intros Ht HL Ga Gb Da Db. unfold D. pose proof (lm_ok a Ga). pose proof (lm_ok b Gb).
  rewrite !qt_mul by assumption. rewrite <- !T_T by (try assumption; apply qt_spec; assumption). ring.
Qed.
Lemma D_opp L a b : req (D L a b) (ropp K (D L b a)).
Proof. unfold D. ring. Qed.
Lemma D_self L a : req (D L a a) r0.
Proof. unfold D. ring. Qed.
Lemma D_chain L a b c : req (D L a c) (radd (D L a b) (D L b c)).
Proof. unfold D. ring. Qed.

Definition pok (Ps : list (poly C * poly C)) : Prop := Forall (fun p => gok (fst p) /\ gok (snd p)) Ps.
Lemma W_lift G Ps t L p : Forall gok G -> pok Ps -> ok t -> ok L -> W G Ps L p -> W G Ps (mul t L) (rmul (rmono K (sm t)) p).
Proof.
  intros HG HP Ht HL H. apply (span_map _ _ _ _ H).
  intros x [(g & m & d & Hg & Hm & Hgt & E)|(a & b & d & Hab & Ha & Hb & E)].
  - apply sp_in. left. rewrite Forall_forall in HG. specialize (HG g Hg). pose proof (lm_ok g HG) as Lg.
    exists g, (mul t m), d. split; [exact Hg|]. split; [apply (ms_mul_ok S ok sm HM); assumption|]. split.
    + rewrite <- (ms_mul_assoc S ok sm HM) by assumption. apply (ms_gt_mul_l S ok sm HM); try assumption. apply (ms_mul_ok S ok sm HM); assumption.
    + rewrite E, <- (T_T t m) by assumption. ring.
  - unfold pok in HP. rewrite Forall_forall in HP. destruct (HP _ Hab) as [Ga Gb]. cbn [fst snd] in Ga, Gb.
    apply sp_in. right. exists a, b, d. split; [exact Hab|].
    assert (DD : dvd L (mul t L)) by (apply dvd_mul; assumption).
    split; [apply dvd_trans with L; assumption|]. split; [apply dvd_trans with L; assumption|].
    rewrite E, <- (D_mul t L) by assumption. ring.
Qed.
(** From L to a multiple. *)
Lemma W_lift_D G Ps L L' a b : Forall gok G -> pok Ps -> ok L -> ok L' -> dvd L L' -> gok a -> gok b -> dvd (lm a) L -> dvd (lm b) L ->
  W G Ps L (D L a b) -> W G Ps L' (D L' a b).
Proof.
  intros HG HP HL HL' HLL Ga Gb Da Db H. destruct (qt_spec L' L HL' HL HLL) as [Ht E].
  rewrite <- E. apply W_eq with (1 := D_mul _ L a b Ht HL Ga Gb Da Db). apply W_lift; assumption.
Qed.

(** ** polynomials as vectors *)
Definition pmax (L : mono) (p : poly C) : Prop := Forall (fun t => gt L (fst t) = true) p.
Lemma mul_term_eq m c f (p : poly C) : (forall d, f d = cmul K d c) ->
  mul_term S m f p = map (fun u => (mul (fst u) m, cmul K (snd u) c)) p.
Proof. intros Hf. unfold mul_term. apply map_ext. intros t. rewrite Hf. reflexivity. Qed.
Lemma mul_term_alt m c f (p : poly C) : all_ok ok p -> ok m -> (forall d, f d = cmul K d c) ->
  mul_term S m f p = map (fun u => (mul m (fst u), cmul K c (snd u))) p.
Proof.
  intros Hp Hm Hf. unfold mul_term. apply map_ext_in. intros t Ht. unfold all_ok in Hp. rewrite Forall_forall in Hp. rewrite Hf.
  f_equal; [apply (ms_mul_comm S ok sm HM); [apply Hp, Ht|exact Hm]|ring].
Qed.
Lemma mul_term_norm m c f p : norm p -> ok m -> c <> 0c -> (forall d, f d = cmul K d c) -> norm (mul_term S m f p).
Proof.
  intros Np Hm Hc Hf. rewrite (mul_term_alt m c f p (proj1 Np) Hm Hf).
  apply (norm_scale_mono S ok sm K HM HD (m, c)); assumption.
Qed.
Lemma mul_term_req m c f p : all_ok ok p -> ok m -> (forall d, f d = cmul K d c) ->
  req (R (mul_term S m f p)) (rmul (rconst c) (T m p)).
Proof.
  intros Np Hm Hf. rewrite (mul_term_alt m c f p Np Hm Hf).
  transitivity (R (products (m_mul S) K [(m, c)] p)).
  - unfold products. cbn [flat_map fst snd]. rewrite app_nil_r. reflexivity.
  - assert (Om : all_ok ok [(m, c)]) by (constructor; [exact Hm|constructor]).
    rewrite (products_req S ok sm K HM HK [(m, c)] p Om Np). unfold T.
    transitivity (rmul (rmul (rconst c) (rmono K (sm m))) (R p)); [|ring].
    assert (E : req (R [(m, c)]) (rmul (rconst c) (rmono K (sm m)))).
    { unfold rconst, rmono, Spec.rmul. cbn [flat_map map app fst snd MonoStruct.graw]. apply (req_single K); [intros v; reflexivity|ring]. }
    rewrite E. reflexivity.
Qed.
Lemma p_sub_cancel t t' (p q : poly C) : ok (fst t) -> fst t' = fst t -> snd t' = snd t ->
  p_sub S K (t :: p) (t' :: q) = p_sub S K p q.
Proof.
  intros Ho E1 E2. unfold p_sub. rewrite pv_sub_cons. rewrite E1, E2.
  rewrite (gt_irrefl ok gt (ms_order S ok sm HM)) by exact Ho.
  assert (X : m_eq S (fst t) (fst t) = true) by (apply (ms_eq S ok sm HM); reflexivity). rewrite X. cbv zeta.
  replace (csub K (snd t) (snd t)) with 0c by ring. unfold is0. rewrite (proj2 (ceqb_eq K HK 0c 0c) eq_refl). reflexivity.
Qed.
Lemma p_sub_keys (P : mono -> Prop) (p q : poly C) : Forall (fun t => P (fst t)) p -> Forall (fun t => P (fst t)) q ->
  Forall (fun t => P (fst t)) (p_sub S K p q).
Proof.
  intros Hp Hq. unfold p_sub. rewrite (pv_sub_add gt (m_eq S) K HK). apply pv_add_keys; [exact Hp|].
  unfold pv_negate. rewrite Forall_map. exact Hq.
Qed.
Lemma graw_cons t (p : poly C) : req (R (t :: p)) (radd (rmul (rconst (snd t)) (rmono K (sm (fst t)))) (R p)).
Proof.
  transitivity (radd [(sm (fst t), snd t)] (R p)); [reflexivity|]. apply (radd_proper K HK) || idtac.
  - unfold rconst, rmono, Spec.rmul. cbn [flat_map map app fst snd]. apply (req_single K); [intros v; reflexivity|ring].
  - reflexivity.
Qed.

Definition sup (vs : list var) (p : poly C) : Prop := Forall (fun t => msup vs (sm (fst t))) p.
Lemma lm_sup vs g : g <> [] -> sup vs g -> msup vs (sm (lm g)).
Proof. intros Hn H. destruct g; [congruence|]. exact (Forall_inv H). Qed.
Lemma gok_cons t p : gok (t :: p) -> ok (fst t) /\ snd t <> 0c /\ pmax (fst t) p /\ norm p.
Proof. intros [H _]. apply (normal_cons ok gt K) in H. exact H. Qed.
Lemma norm_cons t p : ok (fst t) -> snd t <> 0c -> pmax (fst t) p -> norm p -> norm (t :: p).
Proof. intros. apply (normal_cons ok gt K). auto. Qed.
Lemma pmax_trans L L' p : ok L -> ok L' -> all_ok ok p -> gt L' L = true -> pmax L p -> pmax L' p.
Proof.
  intros HL HL' Hp Hg. unfold pmax, all_ok in *. rewrite !Forall_forall in *. intros H t Ht. apply gtt with L; auto.
Qed.

Lemma find_red_ok G m i : Forall gok G -> ok m -> exists x, find_red S m i G = Ok x /\
  match x with
  | Some (_, q, g) => In g G /\ dvd (lm g) m /\ ok q /\ mul q (lm g) = m
  | None => forall g, In g G -> ~ dvd (lm g) m
  end.
Proof.
  intros HG Hm. revert i. induction HG as [|g G Hg HG IH]; intros i; cbn [find_red].
  - exists None. split; [reflexivity|]. intros g [].
  - pose proof (lm_ok g Hg) as Lg. destruct g as [|t g]; [destruct (proj2 Hg eq_refl)|].
    destruct (m_div S m (fst t)) as [b q] eqn:E. destruct (ms_div S ok sm HM m (fst t) Hm Lg) as [A B]. rewrite E in A, B. cbn [fst snd] in A, B.
    destruct b.
    + exists (Some (i, q, t :: g)). split; [reflexivity|]. split; [left; reflexivity|]. split; [apply A; reflexivity|apply B; reflexivity].
    + destruct (IH (Datatypes.S i)) as (x & Ex & Hx). exists x. split; [exact Ex|].
      destruct x as [[[j q'] g']|].
      * destruct Hx as (Hin & X). split; [right; exact Hin|exact X].
      * intros g' [<-|Hin]; [intros D; apply A in D; discriminate|apply Hx, Hin].
Qed.

(** What a normal form [r] of [h] modulo [G] satisfies. *)
Definition irred (G : list (poly C)) (r : poly C) : Prop := Forall (fun t => forall g, In g G -> ~ dvd (lm g) (fst t)) r.
Definition nf_of (vs : list var) (G : list (poly C)) (h r : poly C) : Prop :=
  norm r /\ sup vs r /\ irred G r /\
  (forall L, ok L -> pmax L h -> pmax L r /\ U G L (rsub K (R h) (R r))) /\
  (forall t h', h = t :: h' -> (forall g, In g G -> ~ dvd (lm g) (fst t)) -> exists r', r = t :: r').

Lemma p_sub_pos (p q : poly C) : req (R (p_sub S K p q)) (rsub K (R p) (R q)).
Proof. apply (p_sub_req S ok sm K HM HK). Qed.

Lemma nf_loop_ok vs G sv : Forall gok G -> Forall (sup vs) G -> forall h, norm h -> sup vs h -> forall r s,
  exists r' s' n0, (forall n, (n0 <= n)%nat -> nf_loop K dv S n G sv h r s = Ok (r ++ r', s')) /\ nf_of vs G h r'.
Proof.
  intros HG SG.
  assert (MAIN : forall m, ok m -> msup vs (sm m) -> forall t h', fst t = m -> norm (t :: h') -> sup vs (t :: h') ->
    forall r s, exists r' s' n0, (forall n, (n0 <= n)%nat -> nf_loop K dv S n G sv (t :: h') r s = Ok (r ++ r', s')) /\ nf_of vs G (t :: h') r').
  { intros m. induction (ms_wf S ok sm HM vs m) as [m _ IH]. intros Hm Sm t h' Et Nt St r s.
    assert (SUB : forall h2, norm h2 -> sup vs h2 -> pmax m h2 -> forall r s, exists r' s' n0,
        (forall n, (n0 <= n)%nat -> nf_loop K dv S n G sv h2 r s = Ok (r ++ r', s')) /\ nf_of vs G h2 r').
    { intros h2 N2 S2 M2 r2 s2. destruct h2 as [|t2 h2].
      - exists [], s2, 1%nat. split; [intros [|n] Hn; [lia|]; cbn [nf_loop]; rewrite app_nil_r; reflexivity|].
        split; [exact N2|]. split; [constructor|]. split; [constructor|]. split; [|intros ? ? [=]].
        intros L HL _. split; [constructor|]. apply W_eq with r0; [|apply W_0]. unfold rsub. cbn. reflexivity.
      - assert (N2' := N2). apply (normal_cons ok gt K) in N2'. destruct N2' as (O2 & _).
        apply (IH (fst t2)); try reflexivity; try assumption; [|exact (Forall_inv S2)].
        exact (conj O2 (conj Hm (conj (Forall_inv S2) (conj Sm (Forall_inv M2))))). }
    assert (Nt' := Nt). apply (normal_cons ok gt K) in Nt'. destruct Nt' as (Ot & Ct & Mt & Nh). rewrite Et in Ot, Mt.
    destruct (find_red_ok G (fst t) 0 HG) as (x & Ex & Hx); [rewrite Et; exact Hm|]. destruct x as [[[i q] g]|].
    - destruct Hx as (Hg & Dg & Oq & Eq). pose proof HG as HG'. rewrite Forall_forall in HG'. pose proof (HG' g Hg) as Gg. rewrite Et in Eq, Dg.
      pose proof SG as SG'. rewrite Forall_forall in SG'. pose proof (SG' g Hg) as Sg.
      destruct g as [|u g]; [destruct (proj2 Gg eq_refl)|]. cbn [lm lc] in *.
      destruct (gok_cons u g Gg) as (Ou & Cu & Mu & Ng).
      set (c := dv (snd t) (snd u)). assert (Hc : c <> 0c) by (apply fdiv_nz; assumption).
      set (p2 := mul_term S q (fun d => cmul K d c) (u :: g)). set (h2 := p_sub S K (t :: h') p2).
      assert (E2 : h2 = p_sub S K h' (mul_term S q (fun d => cmul K d c) g)).
      { unfold h2, p2, mul_term. cbn [map]. apply p_sub_cancel; cbn [fst snd]; [rewrite Et; exact Hm| |].
        - rewrite Et, (ms_mul_comm S ok sm HM) by assumption. exact Eq.
        - transitivity (cmul K c (snd u)); [ring|]. apply (field_quo K HF), Cu. }
      assert (N2 : norm p2) by (apply mul_term_norm with c; [exact (proj1 Gg)|assumption..|reflexivity]).
      assert (M2 : pmax m (mul_term S q (fun d => cmul K d c) g)).
      { unfold pmax, mul_term. rewrite Forall_map. cbn [fst]. destruct Ng as (Og & _). unfold pmax, all_ok in Mu, Og. rewrite Forall_forall in *.
        intros w Hw. rewrite <- Eq, (ms_mul_comm S ok sm HM (fst w) q) by (try assumption; apply Og, Hw).
        apply (ms_gt_mul_l S ok sm HM); try assumption; [apply Og, Hw|apply Mu, Hw]. }
      assert (Sq : msup vs (sm q)) by (apply msup_mul_l with (fst u); [assumption..|rewrite Eq; exact Sm]).
      assert (S2 : sup vs p2).
      { unfold sup, p2, mul_term. rewrite Forall_map. cbn [fst]. destruct Gg as ((Og & _) & _). unfold sup, all_ok in Sg, Og. rewrite Forall_forall in *.
        intros w Hw. apply msup_mul; [apply Og, Hw|assumption|apply Sg, Hw|assumption]. }
      assert (Nh2 : norm h2) by (apply (p_sub_normal S ok sm K HM HK); assumption).
      assert (Sh2 : sup vs h2) by (apply (p_sub_keys (fun m => msup vs (sm m))); assumption).
      assert (Mh2 : pmax m h2) by (rewrite E2; apply (p_sub_keys (fun m' => gt m m' = true)); assumption).
      destruct (SUB h2 Nh2 Sh2 Mh2 r (Z.max s (nth i sv 0 + mg (fst t) - mg (fst u)))) as (r' & s' & n0 & Hn & (A1 & A2 & A3 & A4 & A5)).
      exists r', s', (Datatypes.S n0). split.
      + intros [|n] Hn'; [lia|]. cbn [nf_loop]. rewrite Ex. cbn [obind lc lm]. fold c. fold p2. fold h2. apply Hn. lia.
      + split; [exact A1|]. split; [exact A2|]. split; [exact A3|]. split.
        * intros L HL ML. assert (ML' := Forall_inv ML). cbn beta in ML'. rewrite Et in ML'.
          assert (MLh2 : pmax L h2) by (apply (pmax_trans m); try assumption; apply (proj1 Nh2)).
          destruct (A4 L HL MLh2) as [B1 B2]. split; [exact B1|].
          apply W_eq with (radd (rmul (rconst c) (T q (u :: g))) (rsub K (R h2) (R r'))).
          -- unfold h2. rewrite p_sub_pos. unfold p2. rewrite (mul_term_req q c (fun d => cmul K d c) (u :: g)); [ring|exact (proj1 (proj1 Gg))|assumption|reflexivity].
          -- apply W_add; [|exact B2]. apply sp_in. left. exists (u :: g), q, c. split; [exact Hg|]. split; [assumption|]. split; [cbn [lm]; rewrite Eq; exact ML'|reflexivity].
        * intros t0 h0 [= <- <-] Hir. exfalso. apply (Hir _ Hg). cbn [lm]. rewrite Et. exact Dg.
    - destruct (SUB h' Nh (Forall_inv_tail St) Mt (r ++ [t]) s) as (r' & s' & n0 & Hn & (A1 & A2 & A3 & A4 & A5)).
      exists (t :: r'), s', (Datatypes.S n0). split.
      + intros [|n] Hn'; [lia|]. cbn [nf_loop]. rewrite Ex. cbn [obind]. rewrite Hn by lia. rewrite <- app_assoc. reflexivity.
      + assert (OT : ok (fst t)) by (rewrite Et; exact Hm).
        destruct (A4 (fst t) OT) as [B1 _]; [rewrite Et; exact Mt|].
        split; [apply norm_cons; assumption|]. split; [constructor; [exact (Forall_inv St)|exact A2]|].
        split; [constructor; [exact Hx|exact A3]|]. split.
        * intros L HL ML. destruct (A4 L HL (Forall_inv_tail ML)) as [B2 B3]. split; [constructor; [exact (Forall_inv ML)|exact B2]|].
          apply W_eq with (2 := B3). rewrite (graw_cons t h'), (graw_cons t r'). ring.
        * intros t0 h0 [= <- <-] _. exists r'. reflexivity. }
  intros h Nh Sh r s. destruct h as [|t h].
  - exists [], s, 1%nat. split; [intros [|n] Hn; [lia|]; cbn [nf_loop]; rewrite app_nil_r; reflexivity|].
    split; [exact Nh|]. split; [constructor|]. split; [constructor|]. split; [|intros ? ? [=]].
    intros L HL _. split; [constructor|]. apply W_eq with r0; [|apply W_0]. unfold rsub. cbn. reflexivity.
  - assert (N2 := Nh). apply (normal_cons ok gt K) in N2. destruct N2 as (O2 & _).
    apply (MAIN (fst t)); try reflexivity; try assumption. exact (Forall_inv Sh).
Qed.

Lemma nf_sugar_ok vs G sv f s : Forall gok G -> Forall (sup vs) G -> norm f -> sup vs f ->
  exists r s' n0, (forall n, (n0 <= n)%nat -> nf_sugar K dv S n f G sv s = Ok (r, s')) /\ nf_of vs G f r.
Proof.
  intros HG SG Nf Sf. unfold nf_sugar.
  assert (TRIV : nf_of vs [] f f).
  { split; [exact Nf|]. split; [exact Sf|]. split; [apply Forall_forall; intros t _ g []|]. split.
    - intros L _ M. split; [exact M|]. apply W_eq with r0; [ring|apply W_0].
    - intros t h' E _. exists h'. exact E. }
  destruct f as [|t f].
  - exists [], s, O. split; [reflexivity|]. split; [exact Nf|]. split; [constructor|]. split; [constructor|]. split; [|intros ? ? [=]].
    intros L _ _. split; [constructor|]. apply W_eq with r0; [ring|apply W_0].
  - destruct G as [|g G].
    + exists (t :: f), s, O. split; [reflexivity|exact TRIV].
    + destruct (nf_loop_ok vs (g :: G) sv HG SG (t :: f) Nf Sf [] s) as (r' & s' & n0 & A & B). exists r', s', n0. split; [exact A|exact B].
Qed.
Lemma normal_form_ok vs G f : Forall gok G -> Forall (sup vs) G -> norm f -> sup vs f ->
  exists r n0, (forall n, (n0 <= n)%nat -> normal_form K dv S n f G = Ok r) /\ nf_of vs G f r.
Proof.
  intros HG SG Nf Sf. destruct (nf_sugar_ok vs G [] f 0 HG SG Nf Sf) as (r & s' & n0 & A & B).
  exists r, n0. split; [|exact B]. intros n Hn. unfold normal_form. rewrite A by exact Hn. reflexivity.
Qed.

(** ** making monic *)
Lemma make_monic_ok vs g : gok g -> sup vs g -> let g' := make_monic K dv g in
  gok g' /\ sup vs g' /\ lm g' = lm g /\ lc K g' = 1c /\ map fst g' = map fst g /\ exists c, c <> 0c /\ req (R g') (rmul (rconst c) (R g)).
Proof.
  intros Gg Sg. destruct g as [|t g]; [destruct (proj2 Gg eq_refl)|]. cbn [make_monic].
  destruct (gok_cons t g Gg) as (Ot & Ct & Mt & Ng).
  destruct (ceqb_spec K HK (snd t) 1c) as [E|E].
  - cbv zeta. split; [exact Gg|]. split; [exact Sg|]. split; [reflexivity|]. split; [exact E|]. split; [reflexivity|].
    exists 1c. split; [apply (domain_nontrivial K HD)|]. transitivity (rmul (r1 K) (R (t :: g))); [ring|reflexivity].
  - cbv zeta. set (c := dv 1c (snd t)). assert (Hc : c <> 0c) by (apply fdiv_nz; [exact Ct|apply (domain_nontrivial K HD)]).
    assert (KEYS : map fst (map (fun u : mono * C => (fst u, dv (snd u) (snd t))) (t :: g)) = map fst (t :: g)) by (rewrite map_map; reflexivity).
    assert (EQ : map (fun u : mono * C => (fst u, dv (snd u) (snd t))) (t :: g) = map (fun u => (fst u, cmul K c (snd u))) (t :: g)).
    { apply map_ext. intros u. rewrite (fdiv (snd u) (snd t) Ct). fold c. f_equal. ring. }
    assert (NN : norm (map (fun u : mono * C => (fst u, dv (snd u) (snd t))) (t :: g))).
    { destruct Gg as [(A1 & A2 & A3) _]. split; [|split].
      - unfold all_ok. rewrite Forall_map. exact A1.
      - unfold desc. rewrite KEYS. exact A2.
      - unfold nonzero in *. rewrite Forall_map. eapply Forall_impl; [|exact A3]. intros u Hu. apply fdiv_nz; assumption. }
    split; [split; [exact NN|discriminate]|].
    split; [unfold sup; rewrite Forall_map; exact Sg|]. split; [reflexivity|].
    split; [apply fdiv_self, Ct|]. split; [exact KEYS|].
    exists c. split; [exact Hc|]. rewrite EQ. rewrite <- (rscale_mul K HK). unfold rscale, MonoStruct.graw. rewrite !map_map. reflexivity.
Qed.

(** ** S-polynomials *)
Lemma lcm_dvd a b : ok a -> ok b -> ok (mono_lcm vo a b) /\ dvd a (mono_lcm vo a b) /\ dvd b (mono_lcm vo a b) /\
  (forall c, ok c -> dvd a c -> dvd b c -> dvd (mono_lcm vo a b) c) /\
  (forall vs, msup vs (sm a) -> msup vs (sm b) -> msup vs (sm (mono_lcm vo a b))).
Proof.
  intros Ha Hb. destruct (mono_lcm_spec vo Hv a b Ha Hb) as [HL E]. split; [exact HL|].
  assert (X : forall v, exp (sm (mono_lcm vo a b)) v = N.max (exp (sm a) v) (exp (sm b) v)).
  { intros v. rewrite !(exp_sm_mok vo) by assumption. rewrite E. pose proof (zexp_nonneg vo a v Ha). pose proof (zexp_nonneg vo b v Hb). lia. }
  split; [intros v; rewrite X; lia|]. split; [intros v; rewrite X; lia|]. split.
  - intros c Hc H1 H2 v. rewrite X. specialize (H1 v). specialize (H2 v). lia.
  - intros vs H1 H2 v Hn. rewrite X in Hn. destruct (N.eq_dec (exp (sm a) v) 0) as [e|e]; [apply H2; lia|apply H1, e].
Qed.

Lemma s_poly_ok vs f g : gok f -> gok g -> sup vs f -> sup vs g ->
  let L := mono_lcm vo (lm f) (lm g) in
  exists h, s_poly K dv vo S f g = Ok h /\ norm h /\ sup vs h /\ pmax L h /\
    req (R h) (rsub K (rmul (rconst (dv 1c (lc K f))) (T (qt L (lm f)) f)) (rmul (rconst (dv 1c (lc K g))) (T (qt L (lm g)) g))).
Proof.
  intros Gf Gg Sf Sg L. pose proof (lm_ok f Gf) as Of. pose proof (lm_ok g Gg) as Og.
  destruct (lcm_dvd (lm f) (lm g) Of Og) as (OL & Df & Dg & _ & SL). fold L in OL, Df, Dg, SL.
  specialize (SL vs (lm_sup vs f (proj2 Gf) Sf) (lm_sup vs g (proj2 Gg) Sg)).
  assert (AUX : forall a, gok a -> sup vs a -> dvd (lm a) L -> let m := qt L (lm a) in let p := mul_term S m (fun c => dv c (lc K a)) a in
     norm p /\ sup vs p /\ req (R p) (rmul (rconst (dv 1c (lc K a))) (T m a)) /\ exists p', p = (L, 1c) :: p' /\ pmax L p').
  { intros a Ga Sa Da m p. pose proof (lm_ok a Ga) as Oa. destruct (qt_spec L (lm a) OL Oa Da) as [Om Em]. fold m in Om, Em.
    destruct a as [|t a]; [destruct (proj2 Ga eq_refl)|]. cbn [lm lc] in *. destruct (gok_cons t a Ga) as (Ot & Ct & Mt & Na).
    assert (Hf : forall d, (fun c => dv c (snd t)) d = cmul K d (dv 1c (snd t))) by (intros d; apply fdiv, Ct).
    split; [apply mul_term_norm with (dv 1c (snd t)); [exact (proj1 Ga)|exact Om|apply fdiv_nz; [exact Ct|apply (domain_nontrivial K HD)]|exact Hf]|].
    split.
    { unfold sup, p, mul_term. rewrite Forall_map. cbn [fst]. destruct Ga as ((Oa' & _) & _). unfold sup, all_ok in Sa, Oa'. rewrite Forall_forall in *.
      intros w Hw. apply msup_mul; [apply Oa', Hw|exact Om|apply Sa, Hw|]. apply msup_mul_l with (fst t); [assumption..|rewrite Em; exact SL]. }
    split; [apply mul_term_req; [exact (proj1 (proj1 Ga))|exact Om|exact Hf]|].
    eexists. split.
    - unfold p, mul_term. cbn [map]. f_equal. f_equal; [rewrite (ms_mul_comm S ok sm HM) by assumption; exact Em|apply fdiv_self, Ct].
    - unfold pmax. rewrite Forall_map. cbn [fst]. destruct Na as (Oa' & _). unfold pmax, all_ok in Mt, Oa'. rewrite Forall_forall in *.
      intros w Hw. rewrite <- Em, (ms_mul_comm S ok sm HM (fst w) m) by (try assumption; apply Oa', Hw).
      apply (ms_gt_mul_l S ok sm HM); try assumption; [apply Oa', Hw|apply Mt, Hw]. }
  destruct (AUX f Gf Sf Df) as (N1 & S1 & R1 & p1 & E1 & M1). destruct (AUX g Gg Sg Dg) as (N2 & S2 & R2 & p2 & E2 & M2).
  exists (p_sub S K (mul_term S (qt L (lm f)) (fun c => dv c (lc K f)) f) (mul_term S (qt L (lm g)) (fun c => dv c (lc K g)) g)).
  assert (QE : forall a, qt L a = mono_div vo L a) by (intros a; unfold qt; rewrite mdiv; reflexivity).
  split.
  { destruct f as [|tf f]; [destruct (proj2 Gf eq_refl)|]. destruct g as [|tg g]; [destruct (proj2 Gg eq_refl)|].
    cbn [s_poly]. cbv zeta. rewrite !QE. reflexivity. }
  split; [apply (p_sub_normal S ok sm K HM HK); assumption|]. split; [apply (p_sub_keys (fun m => msup vs (sm m))); assumption|]. split.
  - rewrite E1, E2, p_sub_cancel by (try reflexivity; exact OL). apply (p_sub_keys (fun m => gt L m = true)); assumption.
  - rewrite p_sub_pos, R1, R2. reflexivity.
Qed.
Lemma rconst_1 p : req (rmul (rconst 1c) p) p.
Proof. transitivity (rmul (r1 K) p); [reflexivity|ring]. Qed.
Lemma s_poly_monic vs f g : gok f -> gok g -> sup vs f -> sup vs g -> lc K f = 1c -> lc K g = 1c ->
  let L := mono_lcm vo (lm f) (lm g) in
  exists h, s_poly K dv vo S f g = Ok h /\ norm h /\ sup vs h /\ pmax L h /\ req (R h) (D L f g).
Proof.
  intros Gf Gg Sf Sg Ef Eg L. destruct (s_poly_ok vs f g Gf Gg Sf Sg) as (h & A & B & E & F & H).
  exists h. repeat (split; [assumption|]). rewrite H, Ef, Eg, fdiv_1. unfold D. rewrite !rconst_1. reflexivity.
Qed.
End GP.
