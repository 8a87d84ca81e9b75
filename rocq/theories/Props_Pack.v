(** * C13, C14, C44: multiplication through 64-bit packed monomials.

    [packed_mul_lex]/[packed_mul_grlex] are operator* of the multivariate polynomial types with the hook
    [__pair_vec_multiplies_compression] the library really installs.  [strict = true] is the C++ standard
    (a shift by 64 is undefined behaviour), [strict = false] is x86-64. *)
From Verif Require Import Prelude Coef Spec SpecProofs OrderSpec PairVec PairVecProofs Mono MonoProofs Heap
  MonoStruct MonoStructProofs Library LibraryProofs Poly PolyMulProofs Pack PackProofs PackLayout PackMulProofs.
Local Open Scope Z_scope.

Definition packed_mul_lex {C} (strict : bool) (vo : vorder) (K : coefs C) (p q : list (mono * C)) :=
  p_mul (lexS vo) K (mul_compress K (lex_layout strict vo)) p q.
Definition packed_mul_grlex {C} (strict : bool) (vo : vorder) (K : coefs C) (p q : list (mono * C)) :=
  p_mul (grlexS vo) K (mul_compress K (grlex_layout strict vo)) p q.

(** Number of distinct variables in two polynomials. *)
Definition nvars {C} (p q : list (mono * C)) : Z :=
  Z.of_nat (length (nodup N.eq_dec (flat_map (fun t => map fst (md (fst t))) (p ++ q)))).

(** Range of one packed exponent: 63 bits for one variable, otherwise the machine word is divided into
    [n] (lex) or [n+1] (grlex, one more for the total degree) fields of equal width. *)
Definition lex_range (n : Z) : Z := if n =? 1 then 2 ^ 63 else 2 ^ (64 / n).
Definition grlex_range (n : Z) : Z := if n =? 1 then 2 ^ 63 else 2 ^ (64 / (n + 1)).

(** C13 *)
Theorem C13_packed_product_lex : forall strict vo C (K : coefs C) (p q : list (mono * C)),
  lib_vorder vo -> domain_ok K ->
  normal (mok vo) (lex_gt vo) K p -> normal (mok vo) (lex_gt vo) K q ->
  nvars p q <= 64 -> strict = false \/ nvars p q * (64 / nvars p q) <> 64 ->
  (forall t u v, In t p -> In u q -> Z.of_N (exp (sm (fst t)) v) + Z.of_N (exp (sm (fst u)) v) < lex_range (nvars p q)) ->
  exists r, packed_mul_lex strict vo K p q = Ok r /\ normal (mok vo) (lex_gt vo) K r /\
    forall m, coef K (graw sm r) m = coef K (rmul K (graw sm p) (graw sm q)) m.
Proof.
  intros strict vo C K p q Hvo HD Np Nq Hn Hst Hfit. apply lib_vorder_ok in Hvo.
  assert (Op := proj1 Np). assert (Oq := proj1 Nq). unfold all_ok in Op, Oq. rewrite Forall_forall in Op, Oq.
  assert (ZE : forall t v, mok vo (fst t) -> Z.of_N (exp (sm (fst t)) v) = zexp (@fst mono C t) v).
  { intros t v Ht. rewrite (exp_sm_mok vo) by exact Ht. apply Z2N.id, (zexp_nonneg vo), Ht. }
  assert (G : forall a b, normal (mok vo) (lex_gt vo) K a -> normal (mok vo) (lex_gt vo) K b ->
    (var_count a b = var_count p q) ->
    (forall t u v, In t a -> In u b -> zexp (fst t) v + zexp (fst u) v < lex_range (nvars p q)) ->
    comp_good (lexS vo) (mok vo) sm K (mul_compress K (lex_layout strict vo)) a b).
  { intros a b Na Nb Ev Hf. apply (lex_comp_good K (domain_ring K HD) vo Hvo); try assumption;
      rewrite ?Ev; change (Z.of_nat (var_count p q)) with (nvars p q); assumption. }
  destruct (p_mul_ok (lexS vo) (mok vo) sm K (lexS_ok vo Hvo) (domain_ring K HD) HD
    (mul_compress K (lex_layout strict vo)) p q) as (r & E & N & R); [|assumption|assumption|exists r; auto].
  split; apply G; try assumption; try apply var_count_comm; try reflexivity.
  - intros t u v Ht Hu. rewrite <- !ZE by auto. apply Hfit; assumption.
  - intros t u v Ht Hu. rewrite <- !ZE by auto. rewrite Z.add_comm. apply Hfit; assumption.
Qed.
Print Assumptions C13_packed_product_lex.

Theorem C13_packed_product_grlex : forall strict vo C (K : coefs C) (p q : list (mono * C)),
  lib_vorder vo -> domain_ok K ->
  normal (mok vo) (grlex_gt vo) K p -> normal (mok vo) (grlex_gt vo) K q ->
  nvars p q <= 63 -> nvars p q = 1 \/ strict = false \/ (nvars p q + 1) * (64 / (nvars p q + 1)) <> 64 ->
  (forall t u, In t p -> In u q -> deg_sum (md (fst t)) + deg_sum (md (fst u)) < grlex_range (nvars p q)) ->
  exists r, packed_mul_grlex strict vo K p q = Ok r /\ normal (mok vo) (grlex_gt vo) K r /\
    forall m, coef K (graw sm r) m = coef K (rmul K (graw sm p) (graw sm q)) m.
Proof.
  intros strict vo C K p q Hvo HD Np Nq Hn Hst Hfit. apply lib_vorder_ok in Hvo.
  assert (Op := proj1 Np). assert (Oq := proj1 Nq). unfold all_ok in Op, Oq. rewrite Forall_forall in Op, Oq.
  assert (ZE : forall t : mono * C, mok vo (fst t) -> deg_sum (md (fst t)) = mg (fst t)).
  { intros t (_ & _ & Ht). auto. }
  assert (G : forall a b, normal (mok vo) (grlex_gt vo) K a -> normal (mok vo) (grlex_gt vo) K b ->
    (var_count a b = var_count p q) ->
    (forall t u, In t a -> In u b -> mg (fst t) + mg (fst u) < grlex_range (nvars p q)) ->
    comp_good (grlexS vo) (mok vo) sm K (mul_compress K (grlex_layout strict vo)) a b).
  { intros a b Na Nb Ev Hf. apply (grlex_comp_good K (domain_ring K HD) vo Hvo); try assumption;
      rewrite ?Ev; change (Z.of_nat (var_count p q)) with (nvars p q); assumption. }
  destruct (p_mul_ok (grlexS vo) (mok vo) sm K (grlexS_ok vo Hvo) (domain_ring K HD) HD
    (mul_compress K (grlex_layout strict vo)) p q) as (r & E & N & R); [|assumption|assumption|exists r; auto].
  split; apply G; try assumption; try apply var_count_comm; try reflexivity.
  - intros t u Ht Hu. rewrite <- !ZE by auto. apply Hfit; assumption.
  - intros t u Ht Hu. rewrite <- !ZE by auto. rewrite Z.add_comm. apply Hfit; assumption.
Qed.
Print Assumptions C13_packed_product_grlex.

(** x^a as a monomial value *)
Definition mpow (v : var) (e : Z) : mono := Mono [(v, e)] e.
Ltac norm_tac := split; [|split]; repeat constructor; discriminate.

(** Non-vacuity: five variables (12-bit lex fields, 10-bit grlex fields, no shift by 64), strict C++. *)
Definition p5 : list (mono * Z) :=
  [(mpow 1 4000, 1); (mpow 2 1, 1); (mpow 3 1, 1); (mpow 4 1, 1); (mpow 5 95, 3)].
Definition q5 : list (mono * Z) := [(mpow 1 95, 1); (mpow 5 4000, -1)].
Example C13_lex_example :
  nvars p5 q5 = 5 /\ normal (mok vless) (lex_gt vless) Zc p5 /\ normal (mok vless) (lex_gt vless) Zc q5 /\
  (forall t u v, In t p5 -> In u q5 -> Z.of_N (exp (sm (fst t)) v) + Z.of_N (exp (sm (fst u)) v) < lex_range (nvars p5 q5)) /\
  5 * (64 / 5) <> 64.
Proof.
  split; [reflexivity|]. split; [norm_tac|]. split; [norm_tac|]. split; [|discriminate].
  intros t u v Ht Hu. change (lex_range (nvars p5 q5)) with 4096.
  unfold p5, q5 in *. cbn [In] in *.
  repeat (destruct Ht as [<-|Ht]); try contradiction;
  (destruct Hu as [<-|[<-|[]]]); cbn [sm md mpow map fst snd exp];
  repeat match goal with |- context [N.eqb ?a v] => destruct (N.eqb_spec a v); try (exfalso; congruence) end; reflexivity.
Qed.
Example C13_lex_result :
  match packed_mul_lex true vless Zc p5 q5 with Ok r => map snd r = [1; -1; 1; 1; 1; 3; -1; -1; -1; -3] | _ => False end.
Proof. vm_compute. reflexivity. Qed.
Definition g1 : list (mono * Z) := [(mpow 2 300, 1); (mpow 1 1, 1); (mpow 3 1, 1); (mpow 4 1, 1); (mpow 5 1, 2)].
Definition g2 : list (mono * Z) := [(mpow 1 700, 1); (mpow 5 1, -1)].
Example C13_grlex_example :
  nvars g1 g2 = 5 /\ normal (mok vless) (grlex_gt vless) Zc g1 /\ normal (mok vless) (grlex_gt vless) Zc g2 /\
  (forall t u, In t g1 -> In u g2 -> deg_sum (md (fst t)) + deg_sum (md (fst u)) < grlex_range (nvars g1 g2)) /\
  (5 + 1) * (64 / (5 + 1)) <> 64.
Proof.
  split; [reflexivity|]. split; [norm_tac|]. split; [norm_tac|]. split; [|discriminate].
  intros t u Ht Hu. change (grlex_range (nvars g1 g2)) with 1024. unfold g1, g2 in *. cbn [In] in *.
  repeat (destruct Ht as [<-|Ht]); try contradiction; (destruct Hu as [<-|[<-|[]]]); reflexivity.
Qed.

(** C14 is false: multiplication makes no range check.  With 8 variables in lex order every exponent gets
    8 bits: in (a + b + c + d + e + f + g + h^128)^2 the term h^256 comes out as g. *)
Definition sq8 : list (mono * Z) :=
  [(mpow 1 1, 1); (mpow 2 1, 1); (mpow 3 1, 1); (mpow 4 1, 1); (mpow 5 1, 1); (mpow 6 1, 1); (mpow 7 1, 1); (mpow 8 128, 1)].
Theorem C14_no_overflow_refuted : exists p : list (mono * Z), exists r,
  normal (mok vless) (lex_gt vless) Zc p /\
  packed_mul_lex false vless Zc p p = Ok r /\
  coef Zc (rmul Zc (graw sm p) (graw sm p)) [(8%N, 256%N)] = 1 /\ coef Zc (graw sm r) [(8%N, 256%N)] = 0 /\
  coef Zc (rmul Zc (graw sm p) (graw sm p)) [(7%N, 1%N)] = 0 /\ coef Zc (graw sm r) [(7%N, 1%N)] = 1.
Proof.
  exists sq8. destruct (packed_mul_lex false vless Zc sq8 sq8) as [r| | |] eqn:E; vm_compute in E; try discriminate.
  exists r. split; [norm_tac|]. split; [reflexivity|]. split; [vm_compute; reflexivity|].
  injection E as <-. split; [vm_compute; reflexivity|]. split; vm_compute; reflexivity.
Qed.
Print Assumptions C14_no_overflow_refuted.
(** The same for grlex: four variables, 12 bits; (w + x + y + z^2048)^2 loses its leading term altogether:
    the code of z^4096 wraps around the machine word. *)
Definition sq4 : list (mono * Z) := [(mpow 4 2048, 1); (mpow 1 1, 1); (mpow 2 1, 1); (mpow 3 1, 1)].
Theorem C14_no_overflow_grlex_refuted : exists p : list (mono * Z), exists r,
  normal (mok vless) (grlex_gt vless) Zc p /\
  packed_mul_grlex false vless Zc p p = Ok r /\
  coef Zc (rmul Zc (graw sm p) (graw sm p)) [(4%N, 4096%N)] = 1 /\ coef Zc (graw sm r) [(4%N, 4096%N)] = 0.
Proof.
  exists sq4. destruct (packed_mul_grlex false vless Zc sq4 sq4) as [r| | |] eqn:E; vm_compute in E; try discriminate.
  exists r. split; [norm_tac|]. split; [reflexivity|]. split; [vm_compute; reflexivity|].
  injection E as <-. vm_compute; reflexivity.
Qed.
Print Assumptions C14_no_overflow_grlex_refuted.

(** C44.  Under the C++ standard the packing shifts a 64-bit word by 64: any lex product in one variable,
    e.g. (x+1)(x+1), and any grlex product in three variables, e.g. (x+y+z)^2. *)
Definition x1 : list (mono * Z) := [(mpow 1 1, 1); (mono1, 1)].
Definition xyz : list (mono * Z) := [(mpow 1 1, 1); (mpow 2 1, 1); (mpow 3 1, 1)].
Theorem C44_multiplication_UB_refuted :
  (normal (mok vless) (lex_gt vless) Zc x1 /\ packed_mul_lex true vless Zc x1 x1 = UB) /\
  (normal (mok vless) (grlex_gt vless) Zc xyz /\ packed_mul_grlex true vless Zc xyz xyz = UB).
Proof. split; (split; [norm_tac|vm_compute; reflexivity]). Qed.
Print Assumptions C44_multiplication_UB_refuted.

(** Not an exotic case: every lex product of two polynomials in the same single variable with at least two
    terms each. *)
Theorem C44_lex_one_variable_always : forall vo C (K : coefs C) (p q : list (mono * C)),
  lib_vorder vo -> normal (mok vo) (lex_gt vo) K p -> normal (mok vo) (lex_gt vo) K q ->
  (2 <= length p)%nat -> (2 <= length q)%nat -> nvars p q = 1 ->
  packed_mul_lex true vo K p q = UB.
Proof.
  intros vo C K p q Hvo Np Nq Lp Lq Hn. apply lib_vorder_ok in Hvo.
  assert (G : forall a b, normal (mok vo) (lex_gt vo) K a -> normal (mok vo) (lex_gt vo) K b ->
    (2 <= length a)%nat -> (2 <= length b)%nat -> var_count a b = var_count p q ->
    mul_compress K (lex_layout true vo) a b = UB).
  { clear Np Nq Lp Lq. intros a b (Oa & Da & _) (Ob & Db & _) La Lb Ev.
    pose proof (var_count_len vo Hvo a b Oa Ob) as Hlen. rewrite Ev in Hlen. change (Z.of_nat (var_count p q)) with (nvars p q) in Hlen. rewrite Hn in Hlen.
    unfold mul_compress. destruct a as [|a0 [|a1 a']]; [cbn in La; lia|cbn in La; lia|]. destruct b as [|b0 [|b1 b']]; [cbn in Lb; lia|cbn in Lb; lia|].
    cbn [lex_layout lay_can]. unfold can_lex. rewrite !(not_negative vo) by assumption. cbn [orb].
    unfold size_checks. cbn [obind].
    set (vars := pair_vec_vars vo _ _) in *. unfold pack_terms. cbn [mapM].
    assert (E : lay_pack (lex_layout true vo) vars (fst b0) = UB).
    { cbn [lex_layout lay_pack]. unfold pack_lex. change (Z.of_nat (length vars)) with (len vars). rewrite Hlen.
      destruct (md (fst b0)) as [|t d] eqn:Ed.
      - exfalso. apply Forall_cons_iff in Ob as [O0 Ob]. apply Forall_cons_iff in Ob as [O1 _].
        assert (fst b0 = mono1) as E0 by (apply (md_nil_mono1 vo); assumption).
        apply (desc_cons (lex_gt vo)) in Db as [_ Db]. apply Forall_cons_iff in Db as [Db _]. rewrite E0 in Db.
        assert (fst b1 <> mono1). { intros E1. rewrite E1 in Db. discriminate. }
        pose proof (lex_1_least vo (fst b1) O1 H) as L1.
        pose proof (gt_trans _ _ (lex_order vo Hvo) _ _ _ (mok_1 vo) O1 (mok_1 vo) Db L1) as X.
        rewrite (gt_irrefl _ _ (lex_order vo Hvo) _ (mok_1 vo)) in X. discriminate.
      - destruct vars as [|v0 vs]; [discriminate|]. reflexivity. }
    rewrite E. reflexivity. }
  unfold packed_mul_lex, p_mul, pair_vec_multiplies.
  destruct (Nat.ltb (length q) (length p)).
  - rewrite G; try assumption; [|apply var_count_comm]. destruct q as [|? [|? ?]]; cbn in Lq; try lia; reflexivity.
  - rewrite G; try assumption; [|reflexivity]. destruct p as [|? [|? ?]]; cbn in Lp; try lia; reflexivity.
Qed.
Print Assumptions C44_lex_one_variable_always.
