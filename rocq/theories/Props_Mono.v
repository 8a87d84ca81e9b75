(** * C07, C08: monomial orders and monomial algebra.
    Vocabulary: Spec.v (mathematical monomials), OrderSpec.v (strict total orders), Library.v (which
    orders and monomial types the library offers), Mono.v [mok], [zexp], [sm]. *)
From Verif Require Import Prelude Coef Spec OrderSpec PairVec Mono MonoProofs MonoStruct MonoStructProofs
  Library LibraryProofs.

(** C07.  Every order is a strict total order on well-formed monomials, compatible with
    multiplication, with 1 as least element, and has no infinite descending sequence in finitely many
    variables. *)
Theorem C07_orders_admissible : forall M (S : monos M) ok sm, lib_monos S ok sm ->
  (forall a, ok a -> m_gt S a a = false) /\
  (forall a b c, ok a -> ok b -> ok c -> m_gt S a b = true -> m_gt S b c = true -> m_gt S a c = true) /\
  (forall a b, ok a -> ok b -> ~ meq (sm a) (sm b) -> m_gt S a b = true \/ m_gt S b a = true) /\
  (forall a b c, ok a -> ok b -> ok c -> m_gt S a b = true ->
     m_gt S (m_mul S a c) (m_mul S b c) = true) /\
  (forall a, ok a -> ~ meq (sm a) [] -> m_gt S a (m_one S) = true) /\
  (forall vs, well_founded (fun a b =>
     ok a /\ ok b /\ msup vs (sm a) /\ msup vs (sm b) /\ m_gt S b a = true)).
Proof.
  intros M S ok sm H. apply lib_monos_ok in H. destruct (ms_order S ok sm H) as [I T Tot].
  split; [exact I|]. split; [exact T|]. split.
  { intros a b Ha Hb Hn. destruct (Tot a b Ha Hb) as [->|E]; [exfalso; apply Hn; intros v; reflexivity|exact E]. }
  split; [apply (ms_gt_mul S ok sm H)|]. split; [|apply (ms_wf S ok sm H)].
  intros a Ha Hn. apply (ms_gt_one S ok sm H); [exact Ha|]. intros ->. apply Hn. apply (ms_one S ok sm H).
Qed.
Print Assumptions C07_orders_admissible.

(** The orders are the advertised ones: lex compares the exponents of the first variable (in the
    variable order) on which the monomials differ; grlex compares total degrees first. *)
Theorem C07_lex_is_lex : forall vo, lib_vorder vo -> forall a b, mok vo a -> mok vo b ->
  (m_gt (lexS vo) a b = true <->
   exists v, (exp (sm b) v < exp (sm a) v)%N /\ forall w, vo w v = true -> exp (sm a) w = exp (sm b) w).
Proof.
  intros vo Hvo a b Ha Hb. apply lib_vorder_ok in Hvo.
  cbn [lexS m_gt]. rewrite (lex_gt_spec vo Hvo a b Ha Hb). unfold lex_spec. split.
  - intros (v & H1 & H2). exists v. rewrite !(exp_sm_mok vo) by assumption.
    pose proof (zexp_nonneg vo a v Ha). pose proof (zexp_nonneg vo b v Hb).
    split; [lia|]. intros w Hw. rewrite !(exp_sm_mok vo) by assumption. rewrite (H2 w Hw). reflexivity.
  - intros (v & H1 & H2). exists v. rewrite !(exp_sm_mok vo) in H1 by assumption.
    split; [lia|]. intros w Hw. specialize (H2 w Hw). rewrite !(exp_sm_mok vo) in H2 by assumption.
    pose proof (zexp_nonneg vo a w Ha). pose proof (zexp_nonneg vo b w Hb). lia.
Qed.
Print Assumptions C07_lex_is_lex.
Theorem C07_grlex_is_grlex : forall vo, lib_vorder vo -> forall a b, mok vo a -> mok vo b ->
  (m_gt (grlexS vo) a b = true <->
   (mg b < mg a)%Z \/ (mg a = mg b /\ m_gt (lexS vo) a b = true)).
Proof.
  intros vo Hvo a b Ha Hb. cbn [grlexS lexS m_gt]. unfold grlex_gt, lex_gt.
  rewrite orb_true_iff, andb_true_iff, Z.gtb_lt, Z.eqb_eq. reflexivity.
Qed.
Print Assumptions C07_grlex_is_grlex.

(** The variable orders: [less] is by serial number; [univariate_order(v)] puts v first and orders the others
    by serial number; [custom_var_order(vs)], for a list without repetition, follows the list, puts listed
    variables before unlisted ones and orders the latter by serial number. *)
Lemma vmap_set_find m v x w : vmap_find (vmap_set m v x) w = if N.eqb v w then Some x else vmap_find m w.
Proof.
  induction m as [|[u i] m IH]; cbn; [reflexivity|].
  destruct (N.eqb_spec u v) as [->|n]; cbn.
  - destruct (N.eqb v w); reflexivity.
  - rewrite IH. destruct (N.eqb_spec u w) as [->|]; [|reflexivity]. destruct (N.eqb_spec v w); [congruence|reflexivity].
Qed.
Lemma vmap_set_length m v x : vmap_find m v = None -> length (vmap_set m v x) = S (length m).
Proof.
  induction m as [|[u i] m IH]; cbn; [reflexivity|]. destruct (N.eqb u v); [discriminate|].
  intros H. cbn. rewrite IH by exact H. reflexivity.
Qed.
Lemma vmap_go vs : forall m i, NoDup vs -> (forall v, In v vs -> vmap_find m v = None) ->
  length (vmap_of_go m i vs) = (length m + length vs)%nat /\
  (forall v, ~ In v vs -> vmap_find (vmap_of_go m i vs) v = vmap_find m v) /\
  (forall k v, nth_error vs k = Some v -> vmap_find (vmap_of_go m i vs) v = Some (i + Z.of_nat k + 1)%Z).
Proof.
  induction vs as [|a vs IH]; intros m i Hn Hm.
  - cbn. split; [lia|]. split; [reflexivity|]. intros [|k] v H; discriminate.
  - inversion Hn as [|? ? Ha Hn']; subst. cbn [vmap_of_go].
    destruct (IH (vmap_set m a (i + 1)%Z) (i + 1)%Z Hn') as (L & F1 & F2).
    { intros v Hv. rewrite vmap_set_find. destruct (N.eqb_spec a v) as [->|]; [contradiction|]. apply Hm. right. exact Hv. }
    split; [|split].
    + rewrite L, vmap_set_length by (apply Hm; left; reflexivity). cbn. lia.
    + intros v Hv. rewrite F1 by (intros H; apply Hv; right; exact H). rewrite vmap_set_find.
      destruct (N.eqb_spec a v) as [->|]; [exfalso; apply Hv; left; reflexivity|reflexivity].
    + intros [|k] v Hk; cbn in Hk.
      * injection Hk as ->. rewrite F1 by exact Ha. rewrite vmap_set_find, N.eqb_refl. f_equal. lia.
      * rewrite (F2 k v Hk). f_equal. lia.
Qed.
Theorem C07_variable_orders :
  (forall a b, vless a b = true <-> (a < b)%N) /\
  (forall v a b, vuniv v a b = true <-> b <> v /\ (a = v \/ (a < b)%N)) /\
  (forall vs a b, NoDup vs ->
     (vcustom (vmap_of vs) a b = true <->
      (exists i j, nth_error vs i = Some a /\ nth_error vs j = Some b /\ (i < j)%nat) \/
      (In a vs /\ ~ In b vs) \/
      (~ In a vs /\ ~ In b vs /\ (a < b)%N))).
Proof.
  split; [intros a b; apply N.ltb_lt|]. split.
  { intros v a b. unfold vuniv. rewrite andb_true_iff, negb_true_iff, orb_true_iff, N.eqb_neq, N.eqb_eq, N.ltb_lt. tauto. }
  intros vs a b Hn. destruct (vmap_go vs [] 0%Z Hn ltac:(reflexivity)) as (L & F1 & F2).
  fold (vmap_of vs) in *. cbn [length Nat.add vmap_find] in *.
  assert (Ord : forall v, (exists k, nth_error vs k = Some v /\ (k < length vs)%nat /\ custom_order (vmap_of vs) v = (Z.of_nat k + 1)%Z) \/
     (~ In v vs /\ custom_order (vmap_of vs) v = (Z.of_nat (length vs) + 1)%Z)).
  { intros v. unfold custom_order. destruct (in_dec N.eq_dec v vs) as [Hi|Hi].
    - left. apply In_nth_error in Hi as [k Hk]. exists k. split; [exact Hk|]. rewrite (F2 k v Hk).
      split; [apply nth_error_Some; congruence|reflexivity].
    - right. split; [exact Hi|]. rewrite (F1 v Hi), L. reflexivity. }
  assert (Inj : forall i j v, nth_error vs i = Some v -> nth_error vs j = Some v -> i = j).
  { intros i j v Hi Hj. apply (proj1 (NoDup_nth_error vs) Hn); [apply nth_error_Some; congruence|congruence]. }
  assert (Nin : forall k v, nth_error vs k = Some v -> In v vs) by (intros k v; apply nth_error_In).
  unfold vcustom. cbv zeta. rewrite orb_true_iff, andb_true_iff, Z.ltb_lt, Z.eqb_eq, N.ltb_lt.
  destruct (Ord a) as [(i & Hi & Li & ->)|[Ha ->]], (Ord b) as [(j & Hj & Lj & ->)|[Hb ->]].
  - split.
    + intros [H|[H H']]; [left; exists i, j; split; [assumption|split; [assumption|lia]]|]. assert (i = j) as -> by lia. assert (a = b) by congruence. lia.
    + intros [(i' & j' & H1 & H2 & H3)|[[_ H]|[H _]]].
      * rewrite (Inj _ _ _ Hi H1), (Inj _ _ _ Hj H2). left. lia.
      * exfalso. eauto.
      * exfalso. eauto.
  - split; [intros _; right; left; split; [eauto|exact Hb]|]. intros _. left. lia.
  - split; [intros [H|[H H']]; exfalso; lia|]. intros [(i' & j' & H1 & _ & _)|[[H _]|[_ [H _]]]]; exfalso; eauto.
  - split; [intros [H|[H H']]; [lia|right; right; auto]|]. intros [(i' & j' & H1 & _ & _)|[[H _]|[_ [_ H]]]]; [exfalso; eauto|contradiction|right; auto].
Qed.
Print Assumptions C07_variable_orders.
Example C07_custom_example : vcustom (vmap_of [7%N; 3%N]) 7%N 3%N = true /\ vcustom (vmap_of [7%N; 3%N]) 3%N 1%N = true /\
  vcustom (vmap_of [7%N; 3%N]) 1%N 2%N = true.
Proof. repeat split. Qed.

(** Non-vacuity: x^2 y and x y^5 (serials 1 and 2) are well formed and ordered differently by lex and grlex. *)
Definition ex_a := Mono [(1%N, 2%Z); (2%N, 1%Z)] 3.
Definition ex_b := Mono [(1%N, 1%Z); (2%N, 5%Z)] 6.
Example ex_a_ok : mok vless ex_a.
Proof.
  split; [|split; [|reflexivity]].
  - repeat constructor.
  - repeat constructor.
Qed.
Example ex_b_ok : mok vless ex_b.
Proof.
  split; [|split; [|reflexivity]].
  - repeat constructor.
  - repeat constructor.
Qed.
Example C07_example : m_gt (lexS vless) ex_a ex_b = true /\ m_gt (grlexS vless) ex_b ex_a = true.
Proof. split; reflexivity. Qed.

(** C08.  Product, exact quotient, divisibility test and lcm act exponent-wise, and the results are
    well formed (sorted, positive exponents, correct cached degree). *)
Theorem C08_product : forall vo, lib_vorder vo -> forall a b, mok vo a -> mok vo b ->
  mok vo (mono_mul vo a b) /\
  forall v, exp (sm (mono_mul vo a b)) v = (exp (sm a) v + exp (sm b) v)%N.
Proof.
  intros vo Hvo a b Ha Hb. apply lib_vorder_ok in Hvo. split; [apply mok_mul; assumption|].
  intros v. apply (exp_ms_mul (lexS vo) (mok vo) sm (lexS_ok vo Hvo)); assumption.
Qed.
Print Assumptions C08_product.
Theorem C08_divisibility_and_quotient : forall vo, lib_vorder vo -> forall a b, mok vo a -> mok vo b ->
  (fst (is_divexact vo a b) = true <-> forall v, (exp (sm b) v <= exp (sm a) v)%N) /\
  (fst (is_divexact vo a b) = true ->
     mok vo (snd (is_divexact vo a b)) /\
     forall v, exp (sm (snd (is_divexact vo a b))) v = (exp (sm a) v - exp (sm b) v)%N).
Proof.
  intros vo Hvo a b Ha Hb. apply lib_vorder_ok in Hvo.
  destruct (ms_div (lexS vo) (mok vo) sm (lexS_ok vo Hvo) a b Ha Hb) as [H1 H2]. cbn [lexS m_div m_mul] in *.
  split; [exact H1|]. intros E. destruct (H2 E) as [Hq Hm]. split; [exact Hq|]. intros v.
  pose proof (exp_ms_mul (lexS vo) (mok vo) sm (lexS_ok vo Hvo) _ _ v Hq Hb) as Hx.
  cbn [lexS m_mul] in Hx. rewrite Hm in Hx. lia.
Qed.
Print Assumptions C08_divisibility_and_quotient.
Theorem C08_lcm : forall vo, lib_vorder vo -> forall a b, mok vo a -> mok vo b ->
  mok vo (mono_lcm vo a b) /\
  forall v, exp (sm (mono_lcm vo a b)) v = N.max (exp (sm a) v) (exp (sm b) v).
Proof.
  intros vo Hvo a b Ha Hb. apply lib_vorder_ok in Hvo.
  destruct (mono_lcm_spec vo Hvo a b Ha Hb) as [H1 H2]. split; [exact H1|]. intros v.
  rewrite !(exp_sm_mok vo) by assumption. rewrite H2.
  pose proof (zexp_nonneg vo a v Ha). pose proof (zexp_nonneg vo b v Hb). lia.
Qed.
Print Assumptions C08_lcm.
Theorem C08_power : forall vo, lib_vorder vo -> forall a n, mok vo a -> (0 <= n)%Z ->
  mok vo (mono_pow a n) /\
  forall v, exp (sm (mono_pow a n)) v = (Z.to_N n * exp (sm a) v)%N.
Proof.
  intros vo Hvo a n Ha Hn. destruct (mono_pow_spec vo a n Ha Hn) as [H1 H2]. split; [exact H1|]. intros v.
  rewrite !(exp_sm_mok vo) by assumption. rewrite H2. lia.
Qed.
Print Assumptions C08_power.
(** Equality of monomials is equality of exponents; the degree of a variable is its exponent. *)
Theorem C08_equality_and_degree : forall vo, lib_vorder vo -> forall a b, mok vo a -> mok vo b ->
  (mono_eqb a b = true <-> forall v, exp (sm a) v = exp (sm b) v) /\
  (forall v, Z.to_N (mono_deg a v) = exp (sm a) v) /\
  mg a = deg_sum (md a).
Proof.
  intros vo Hvo a b Ha Hb. apply lib_vorder_ok in Hvo. split; [|split].
  - rewrite mono_eqb_iff. split; [intros ->; reflexivity|]. intros H. apply (sm_inj vo Hvo); assumption.
  - intros v. rewrite (exp_sm_mok vo) by assumption. rewrite (mok_mono_deg vo Hvo) by assumption. reflexivity.
  - apply Ha.
Qed.
Print Assumptions C08_equality_and_degree.
Example C08_example : mono_lcm vless ex_a ex_b = Mono [(1%N, 2%Z); (2%N, 5%Z)] 7 /\
  fst (is_divexact vless ex_a ex_b) = false /\ fst (is_divexact vless ex_a (mono_var 1)) = true.
Proof. repeat split. Qed.
