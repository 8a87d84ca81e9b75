(** * Packed multiplication agrees with polynomial multiplication when every product monomial fits. *)
From Coq Require Import Sorting.Sorted.
From Verif Require Import Prelude Coef Spec SpecProofs OrderSpec PairVec PairVecProofs Mono MonoProofs Heap HeapProofs HeapMulProofs
  MonoStruct MonoStructProofs Poly PolyMulProofs Pack PackProofs PackLayout.

Lemma mapM_ok {A B} (f : A -> outcome B) (g : A -> B) l : (forall a, In a l -> f a = Ok (g a)) -> mapM f l = Ok (map g l).
Proof.
  intros H. induction l as [|a l IH]; [reflexivity|]. cbn [mapM map]. rewrite H by (left; reflexivity). cbn [obind].
  fold (@mapM A B f). rewrite IH by (intros; apply H; right; assumption). reflexivity.
Qed.
Lemma csum_map {A A' C} (K : coefs C) (h : A -> A') (phi : A' -> bool) (l : list (A * C)) :
  csum K phi (map (fun t => (h (fst t), snd t)) l) = csum K (fun a => phi (h a)) l.
Proof. induction l as [|[a c] l IH]; [reflexivity|]. cbn. rewrite IH. reflexivity. Qed.
Lemma csum_ext_in {A C} (K : coefs C) (p q : A -> bool) (l : list (A * C)) :
  (forall t, In t l -> p (fst t) = q (fst t)) -> csum K p l = csum K q l.
Proof.
  induction l as [|[a c] l IH]; intros H; [reflexivity|]. cbn. pose proof (H (a, c) (or_introl eq_refl)) as E. cbn in E. rewrite E.
  rewrite IH by (intros; apply H; right; assumption). reflexivity.
Qed.

Section PM.
Context {C : Type} (K : coefs C) (HK : ring_ok K).
Variable (vo : vorder) (gt : mono -> mono -> bool) (L : layout) (vars : list var) (okm : mono -> Prop) (code : mono -> Z).
Context (HP : packing vo gt L vars okm code).
Context (HO : order_on (mok vo) gt).

Definition codes (p : list (mono * C)) : list (Z * C) := map (fun t => (code (fst t), snd t)) p.
Definition dec (c : Z) : mono := match lay_unpack L vars c with Ok m => m | _ => mono1 end.
Definition okc (c : Z) : Prop := exists m, okm m /\ code m = c.

Lemma dec_code m : okm m -> dec (code m) = m.
Proof. intros H. unfold dec. rewrite (pk_unpack _ _ _ _ _ _ HP m H). reflexivity. Qed.
Lemma dec_ok c : okc c -> okm (dec c) /\ code (dec c) = c /\ lay_unpack L vars c = Ok (dec c).
Proof.
  intros (m & H & <-). rewrite (dec_code m H). split; [exact H|]. split; [reflexivity|]. apply (pk_unpack _ _ _ _ _ _ HP m H).
Qed.
Lemma okc_code m : okm m -> okc (code m).
Proof. exists m. auto. Qed.
Lemma gtb_total : order_on okc Z.gtb.
Proof. split; intros; lia. Qed.
Lemma code_gt_iff a b : okm a -> okm b -> (gt a b = true <-> Z.gtb (code a) (code b) = true).
Proof.
  intros Ha Hb. split.
  - intros H. pose proof (pk_gt _ _ _ _ _ _ HP a b Ha Hb H). lia.
  - intros H. destruct (gt_total _ _ HO a b (pk_mok _ _ _ _ _ _ HP a Ha) (pk_mok _ _ _ _ _ _ HP b Hb)) as [->|[E|E]]; [lia|exact E|].
    pose proof (pk_gt _ _ _ _ _ _ HP b a Hb Ha E). lia.
Qed.
Lemma pack_ok (p : list (mono * C)) : all_ok okm p -> pack_terms L vars p = Ok (codes p).
Proof.
  intros H. unfold pack_terms, codes. apply mapM_ok. intros t Ht. unfold all_ok in H. rewrite Forall_forall in H.
  rewrite (pk_pack _ _ _ _ _ _ HP _ (H t Ht)). reflexivity.
Qed.
Definition decs (r : list (Z * C)) : list (mono * C) := map (fun t => (dec (fst t), snd t)) r.
Lemma unpack_ok (r : list (Z * C)) : all_ok okc r -> unpack_terms L vars r = Ok (decs r).
Proof.
  intros H. unfold unpack_terms, decs. apply mapM_ok. intros t Ht. unfold all_ok in H. rewrite Forall_forall in H.
  destruct (dec_ok _ (H t Ht)) as (_ & _ & ->). reflexivity.
Qed.
Lemma decs_okm (r : list (Z * C)) : all_ok okc r -> all_ok okm (decs r).
Proof.
  intros H. unfold all_ok, decs. rewrite Forall_map. eapply Forall_impl; [|exact H]. intros t Ht. apply (dec_ok _ Ht).
Qed.
Lemma all_okm_mok (p : list (mono * C)) : all_ok okm p -> all_ok (mok vo) p.
Proof. intros H. eapply Forall_impl; [|exact H]. intros t. apply (pk_mok _ _ _ _ _ _ HP). Qed.
Lemma decs_desc (r : list (Z * C)) : all_ok okc r -> desc Z.gtb r -> desc gt (decs r).
Proof.
  intros Ho Hd. induction r as [|t r IH]; [constructor|]. apply Forall_cons_iff in Ho as [Ot Or].
  apply (desc_cons Z.gtb) in Hd as [Hd Hf]. change (decs (t :: r)) with ((dec (fst t), snd t) :: decs r). apply (desc_cons gt). split; [apply IH; assumption|].
  unfold decs. rewrite Forall_map. rewrite Forall_forall in Hf. apply Forall_forall. intros u Hu. cbn [fst].
  unfold all_ok in Or. rewrite Forall_forall in Or. destruct (dec_ok _ Ot) as (A1 & A2 & _). destruct (dec_ok _ (Or u Hu)) as (B1 & B2 & _).
  apply code_gt_iff; try assumption. rewrite A2, B2. apply Hf, Hu.
Qed.
Lemma decs_normal (r : list (Z * C)) : normal okc Z.gtb K r -> normal (mok vo) gt K (decs r).
Proof.
  intros (Ho & Hd & Hz). split; [apply all_okm_mok, decs_okm, Ho|]. split; [apply decs_desc; assumption|].
  unfold nonzero, decs. rewrite Forall_map. exact Hz.
Qed.
Lemma codes_desc (p : list (mono * C)) : all_ok okm p -> desc gt p -> desc Z.gtb (codes p).
Proof.
  intros Ho Hd. induction p as [|t r IH]; [constructor|]. apply Forall_cons_iff in Ho as [Ot Or].
  apply (desc_cons gt) in Hd as [Hd Hf]. change (codes (t :: r)) with ((code (fst t), snd t) :: codes r). apply (desc_cons Z.gtb). split; [apply IH; assumption|].
  unfold codes. rewrite Forall_map. rewrite Forall_forall in Hf. apply Forall_forall. intros u Hu. cbn [fst].
  unfold all_ok in Or. rewrite Forall_forall in Or. apply code_gt_iff; auto.
Qed.
Lemma codes_okc (p : list (mono * C)) : all_ok okm p -> all_ok okc (codes p).
Proof. intros H. unfold all_ok, codes. rewrite Forall_map. eapply Forall_impl; [|exact H]. intros t Ht. apply okc_code, Ht. Qed.
Lemma decs_codes (p : list (mono * C)) : all_ok okm p -> decs (codes p) = p.
Proof.
  intros H. unfold decs, codes. rewrite map_map. cbn [fst snd]. induction p as [|[m c] p IH]; [reflexivity|].
  apply Forall_cons_iff in H as [H1 H2]. cbn [map fst snd]. rewrite (dec_code m H1), IH by exact H2. reflexivity.
Qed.

Lemma cadd_code a b : okm a -> okm b -> okm (mono_mul vo a b) -> cadd64 (code a) (code b) = code (mono_mul vo a b).
Proof.
  intros Ha Hb Hab. rewrite (pk_add _ _ _ _ _ _ HP a b Ha Hb). unfold cadd64. apply wrap64_small.
  rewrite <- (pk_add _ _ _ _ _ _ HP a b Ha Hb). apply (pk_range _ _ _ _ _ _ HP), Hab.
Qed.

Definition prod_fits (p q : list (mono * C)) : Prop :=
  forall t u, In t p -> In u q -> okm (mono_mul vo (fst t) (fst u)).

Lemma products_codes (p q : list (mono * C)) : all_ok okm p -> all_ok okm q -> prod_fits p q ->
  products cadd64 K (codes p) (codes q) = codes (products (mono_mul vo) K p q).
Proof.
  intros Hp Hq Hf. unfold products, codes. rewrite !flat_map_concat_map, map_map, concat_map, map_map. f_equal.
  apply map_ext_in. intros t Ht. rewrite !map_map. apply map_ext_in. intros u Hu. cbn [fst snd].
  unfold all_ok in Hp, Hq. rewrite Forall_forall in Hp, Hq. f_equal. apply cadd_code; auto.
Qed.

Context (S : monos mono) (HS : monos_ok S (mok vo) sm) (ES : m_gt S = gt) (EM : m_mul S = mono_mul vo).

Theorem packed_mul_ok (p q : list (mono * C)) : p <> [] -> q <> [] ->
  normal (mok vo) gt K p -> normal (mok vo) gt K q -> all_ok okm p -> all_ok okm q -> prod_fits p q ->
  lay_can L false (map fst p) (map fst q) = Ok (Some vars) ->
  exists out, mul_compress K L p q = Ok (Some out) /\ normal (mok vo) gt K out /\
    req K (graw sm out) (rmul K (graw sm p) (graw sm q)).
Proof.
  intros Np Nq (_ & Dp & Zp) (_ & Dq & Zq) Hp Hq Hf Hcan.
  assert (Hd : exists d : mono * C, In d p) by (destruct p as [|d ?]; [congruence|exists d; left; reflexivity]).
  destruct Hd as [d Hd]. set (dc := (code (fst d), snd d)).
  assert (Lp : 0 < length p) by (destruct p; [congruence|cbn; lia]).
  assert (Lq : 0 < length q) by (destruct q; [congruence|cbn; lia]).
  assert (Nth : forall (v : list (mono * C)) i, nth i (codes v) dc = (code (fst (nth i v d)), snd (nth i v d))).
  { intros v i. unfold codes, dc. rewrite <- (map_nth (fun t => (code (fst t), snd t))). reflexivity. }
  assert (PP : forall i j, i < length p -> j < length q ->
     P cadd64 (codes p) (codes q) dc i j = code (mono_mul vo (fst (nth i p d)) (fst (nth j q d)))).
  { intros i j Hi Hj. unfold P. rewrite !Nth. cbn [fst]. unfold all_ok in *. rewrite Forall_forall in Hp, Hq.
    apply cadd_code; [apply Hp, nth_In, Hi|apply Hq, nth_In, Hj|apply Hf; apply nth_In; assumption]. }
  assert (OkP : forall i j, i < length p -> j < length q -> okm (mono_mul vo (fst (nth i p d)) (fst (nth j q d)))).
  { intros i j Hi Hj. apply Hf; apply nth_In; assumption. }
  assert (A1 : forall i, i < length p -> okm (fst (nth i p d))).
  { intros i Hi. unfold all_ok in Hp. rewrite Forall_forall in Hp. apply Hp, nth_In, Hi. }
  assert (A2 : forall i, i < length q -> okm (fst (nth i q d))).
  { intros i Hi. unfold all_ok in Hq. rewrite Forall_forall in Hq. apply Hq, nth_In, Hi. }
  assert (MK := pk_mok _ _ _ _ _ _ HP).
  destruct (heap_mul_ok okc Z.gtb Z.eqb cadd64 K gtb_total Z.eqb_eq HK (codes p) (codes q) dc)
    as (res & E & Hn & Hcs); unfold codes in *; rewrite ?map_length; fold (codes p) in *; fold (codes q) in *.
  - intros i j Hi Hj. rewrite PP by assumption. apply okc_code, OkP; assumption.
  - intros i j j' Hi Hj Hj'. rewrite !PP by lia. apply code_gt_iff; [apply OkP; lia|apply OkP; lia|].
    rewrite <- EM, <- ES. apply (ms_gt_mul_l S (mok vo) sm HS); [apply MK, A2; lia|apply MK, A2; lia|apply MK, A1; lia|].
    rewrite ES. apply (desc_nth gt q j j' d Dq); assumption.
  - intros i i' j Hi Hi' Hj. rewrite !PP by lia. apply code_gt_iff; [apply OkP; lia|apply OkP; lia|].
    rewrite <- EM, <- ES. apply (ms_gt_mul S (mok vo) sm HS); [apply MK, A1; lia|apply MK, A1; lia|apply MK, A2; lia|].
    rewrite ES. apply (desc_nth gt p i i' d Dp); assumption.
  - exact Lq.
  - exact Lp.
  - exists (decs res). split; [|split].
    + unfold mul_compress. destruct p as [|p0 p']; [congruence|]. destruct q as [|q0 q']; [congruence|].
      rewrite Hcan. cbn [obind]. rewrite pack_ok by assumption. cbn [obind]. rewrite pack_ok by assumption. cbn [obind].
      unfold codes in *. rewrite E. cbn [obind]. rewrite unpack_ok by apply Hn. reflexivity.
    + apply decs_normal, Hn.
    + transitivity (graw sm (products (mono_mul vo) K p q)).
      * apply (csum_graw sm K). intros phi. unfold decs. rewrite csum_map, Hcs.
        fold (codes p) (codes q). rewrite products_codes by assumption. unfold codes. rewrite csum_map. apply csum_ext_in.
        intros t Ht. f_equal. apply dec_code. unfold products in Ht. apply in_flat_map in Ht as (u & Hu & Ht).
        apply in_map_iff in Ht as (w & <- & Hw). cbn [fst]. apply Hf; assumption.
      * rewrite <- EM. apply (products_req S (mok vo) sm K HS HK); apply all_okm_mok; assumption.
Qed.
End PM.

(** ** The hook on its domain *)
Section Hook.
Context {C : Type} (K : coefs C) (HK : ring_ok K).
Variable vo : vorder.
Context (Hvo : vorder_ok vo).
Notation poly := (list (mono * C)).

(** the variables that occur in two polynomials, and their number *)
Definition occurring (p q : poly) : list var := flat_map (fun t => map fst (md (fst t))) (p ++ q).
Definition var_count (p q : poly) : nat := length (nodup N.eq_dec (occurring p q)).

Lemma vsorted_NoDup l : vsorted vo l -> NoDup l.
Proof.
  intros H. induction l as [|a l IH]; [constructor|]. apply StronglySorted_inv in H as [H1 H2].
  constructor; [|apply IH, H1]. intros Hin. rewrite Forall_forall in H2. specialize (H2 a Hin). rewrite (vo_irrefl vo Hvo) in H2. discriminate.
Qed.
Lemma mok_map (p : poly) : all_ok (mok vo) p -> Forall (mok vo) (map fst p).
Proof. intros H. rewrite Forall_map. exact H. Qed.

Lemma pair_vec_vars_in (p q : poly) : all_ok (mok vo) p -> all_ok (mok vo) q ->
  forall v, In v (pair_vec_vars vo (map fst p) (map fst q)) <-> In v (occurring p q).
Proof.
  intros Hp Hq v. destruct (add_vars_spec vo Hvo (map fst p) [] ltac:(constructor) (mok_map p Hp)) as [S1 I1].
  destruct (add_vars_spec vo Hvo (map fst q) _ S1 (mok_map q Hq)) as [S2 I2].
  unfold pair_vec_vars. rewrite I2, I1. unfold occurring. rewrite in_flat_map. split.
  - intros [[[]|(m & Hm & Hv)]|(m & Hm & Hv)]; apply in_map_iff in Hm as (t & <- & Ht); exists t; split; auto; apply in_or_app; auto.
  - intros (t & Ht & Hv). apply in_app_or in Ht as [Ht|Ht]; [left; right|right]; exists (fst t); split; auto; apply in_map; exact Ht.
Qed.
Lemma var_count_len (p q : poly) : all_ok (mok vo) p -> all_ok (mok vo) q ->
  len (pair_vec_vars vo (map fst p) (map fst q)) = Z.of_nat (var_count p q).
Proof.
  intros Hp Hq. unfold len, var_count. f_equal. apply Nat.le_antisymm; apply NoDup_incl_length.
  - apply vsorted_NoDup. apply (pair_vec_vars_spec vo Hvo); apply mok_map; assumption.
  - intros v Hv. apply nodup_In. apply pair_vec_vars_in; assumption.
  - apply NoDup_nodup.
  - intros v Hv. apply nodup_In in Hv. apply pair_vec_vars_in; assumption.
Qed.
Lemma var_count_comm (p q : poly) : var_count p q = var_count q p.
Proof.
  unfold var_count. apply Nat.le_antisymm; apply NoDup_incl_length; try apply NoDup_nodup;
    intros v Hv; apply nodup_In in Hv; apply nodup_In; unfold occurring in *; rewrite flat_map_app in *; apply in_app_or in Hv; apply in_or_app; tauto.
Qed.
Lemma not_negative (p : poly) : all_ok (mok vo) p -> some_negative (map fst p) = false.
Proof.
  intros H. unfold some_negative. apply Bool.not_true_iff_false. intros E. apply existsb_exists in E as (m & Hm & E).
  apply in_map_iff in Hm as (t & <- & Ht). unfold all_ok in H. rewrite Forall_forall in H. destruct (H t Ht) as (_ & Hp & _).
  apply existsb_exists in E as (u & Hu & E). rewrite Forall_forall in Hp. specialize (Hp u Hu). lia.
Qed.
Lemma incl_vars (p q : poly) t : all_ok (mok vo) p -> all_ok (mok vo) q -> In t p \/ In t q ->
  incl (map fst (md (fst t))) (pair_vec_vars vo (map fst p) (map fst q)).
Proof.
  intros Hp Hq Ht. apply (pair_vec_vars_spec vo Hvo); [apply mok_map, Hp|apply mok_map, Hq|].
  destruct Ht; [left|right]; apply in_map; assumption.
Qed.

Lemma zexp_sum_lt_l m u v lim : mok vo m -> mok vo u -> (zexp m v + zexp u v < lim -> zexp m v < lim)%Z.
Proof. intros _ Hu. pose proof (zexp_nonneg vo u v Hu). lia. Qed.

Definition lex_ok_shift (strict : bool) (n : Z) : Prop := (strict = false \/ n * (64 / n) <> 64)%Z.

Theorem lex_comp_good strict (p q : poly) :
  normal (mok vo) (lex_gt vo) K p -> normal (mok vo) (lex_gt vo) K q ->
  (Z.of_nat (var_count p q) <= 64)%Z -> lex_ok_shift strict (Z.of_nat (var_count p q)) ->
  (forall t u v, In t p -> In u q -> (zexp (fst t) v + zexp (fst u) v < lex_lim (Z.of_nat (var_count p q)))%Z) ->
  comp_good (lexS vo) (mok vo) sm K (mul_compress K (lex_layout strict vo)) p q.
Proof.
  intros Np Nq Hn Hst Hfit. unfold comp_good.
  destruct p as [|t0 p']; [exact I|]. destruct q as [|u0 q']; [exact I|].
  set (p := t0 :: p') in *. set (q := u0 :: q') in *.
  destruct Np as (Op & Dp & Zp). destruct Nq as (Oq & Dq & Zq).
  set (vars := pair_vec_vars vo (map fst p) (map fst q)).
  assert (Hv : vsorted vo vars) by (apply (pair_vec_vars_spec vo Hvo); apply mok_map; assumption).
  pose proof (var_count_len p q Op Oq) as Hlen. fold vars in Hlen. rewrite <- Hlen in *.
  pose proof (lex_packing vo Hvo strict vars Hv Hn Hst) as HP.
  pose proof Op as Op'. pose proof Oq as Oq'. unfold all_ok in Op', Oq'. rewrite Forall_forall in Op', Oq'.
  assert (Fp : all_ok (lex_fits vo vars) p).
  { apply Forall_forall. intros t Ht. split; [auto|]. split; [apply incl_vars; auto|]. intros v.
    apply (zexp_sum_lt_l (fst t) (fst u0)); auto; [apply Oq'; left; reflexivity|]. apply Hfit; [exact Ht|left; reflexivity]. }
  assert (Fq : all_ok (lex_fits vo vars) q).
  { apply Forall_forall. intros t Ht. split; [auto|]. split; [apply incl_vars; auto|]. intros v.
    apply (zexp_sum_lt_l (fst t) (fst t0)); auto; [apply Op'; left; reflexivity|]. rewrite Z.add_comm. apply Hfit; [left; reflexivity|exact Ht]. }
  destruct (packed_mul_ok K HK vo (lex_gt vo) (lex_layout strict vo) vars (lex_fits vo vars) (lex_code vars) HP
     (lex_order vo Hvo) (lexS vo) (lexS_ok vo Hvo) eq_refl eq_refl p q) as (out & E & R1 & R2).
  - discriminate.
  - discriminate.
  - repeat split; assumption.
  - repeat split; assumption.
  - exact Fp.
  - exact Fq.
  - intros t u Ht Hu. split; [apply (mok_mul vo Hvo); auto|]. split.
    + intros v Hin. assert (Z : (zexp (mono_mul vo (fst t) (fst u)) v <> 0)%Z).
      { pose proof (md_fst_In vo _ v Hin (mok_mul vo Hvo _ _ (Op' t Ht) (Oq' u Hu))). lia. }
      rewrite (zexp_mul vo) in Z.
      destruct (in_dec N.eq_dec v vars) as [|Hnin]; [assumption|]. exfalso. apply Z.
      rewrite !(zexp_out vars) by (auto; apply incl_vars; auto). reflexivity.
    + intros v. rewrite (zexp_mul vo). apply Hfit; assumption.
  - cbn [lex_layout lay_can]. unfold can_lex. rewrite !not_negative by assumption. cbn [orb].
    unfold size_checks. cbn [obind]. reflexivity.
  - rewrite E. split; [exact R1|exact R2].
Qed.

Definition grlex_ok_shift (strict : bool) (n : Z) : Prop := (n = 1 \/ strict = false \/ (n + 1) * (64 / (n + 1)) <> 64)%Z.

Theorem grlex_comp_good strict (p q : poly) :
  normal (mok vo) (grlex_gt vo) K p -> normal (mok vo) (grlex_gt vo) K q ->
  (Z.of_nat (var_count p q) <= 63)%Z -> grlex_ok_shift strict (Z.of_nat (var_count p q)) ->
  (forall t u, In t p -> In u q -> (mg (fst t) + mg (fst u) < grlex_lim (Z.of_nat (var_count p q)))%Z) ->
  comp_good (grlexS vo) (mok vo) sm K (mul_compress K (grlex_layout strict vo)) p q.
Proof.
  intros Np Nq Hn Hst Hfit. unfold comp_good.
  destruct p as [|t0 p']; [exact I|]. destruct q as [|u0 q']; [exact I|].
  set (p := t0 :: p') in *. set (q := u0 :: q') in *.
  destruct Np as (Op & Dp & Zp). destruct Nq as (Oq & Dq & Zq).
  set (vars := pair_vec_vars vo (map fst p) (map fst q)).
  assert (Hv : vsorted vo vars) by (apply (pair_vec_vars_spec vo Hvo); apply mok_map; assumption).
  pose proof (var_count_len p q Op Oq) as Hlen. fold vars in Hlen. rewrite <- Hlen in *.
  pose proof (grlex_packing vo Hvo strict vars Hv Hn Hst) as HP.
  pose proof Op as Op'. pose proof Oq as Oq'. unfold all_ok in Op', Oq'. rewrite Forall_forall in Op', Oq'.
  assert (Fp : all_ok (grlex_fits vo vars) p).
  { apply Forall_forall. intros t Ht. split; [auto|]. split; [apply incl_vars; auto|].
    pose proof (Hfit t u0 Ht (or_introl eq_refl)). pose proof (mg_nonneg vo (fst u0) (Oq' u0 (or_introl eq_refl))). lia. }
  assert (Fq : all_ok (grlex_fits vo vars) q).
  { apply Forall_forall. intros t Ht. split; [auto|]. split; [apply incl_vars; auto|].
    pose proof (Hfit t0 t (or_introl eq_refl) Ht). pose proof (mg_nonneg vo (fst t0) (Op' t0 (or_introl eq_refl))). lia. }
  destruct (packed_mul_ok K HK vo (grlex_gt vo) (grlex_layout strict vo) vars (grlex_fits vo vars) (grlex_code vars) HP
     (grlex_order vo Hvo) (grlexS vo) (grlexS_ok vo Hvo) eq_refl eq_refl p q) as (out & E & R1 & R2).
  - discriminate.
  - discriminate.
  - repeat split; assumption.
  - repeat split; assumption.
  - exact Fp.
  - exact Fq.
  - intros t u Ht Hu. split; [apply (mok_mul vo Hvo); auto|]. split.
    + intros v Hin. assert (Z : (zexp (mono_mul vo (fst t) (fst u)) v <> 0)%Z).
      { pose proof (md_fst_In vo _ v Hin (mok_mul vo Hvo _ _ (Op' t Ht) (Oq' u Hu))). lia. }
      rewrite (zexp_mul vo) in Z.
      destruct (in_dec N.eq_dec v vars) as [|Hnin]; [assumption|]. exfalso. apply Z.
      rewrite !(zexp_out vars) by (auto; apply incl_vars; auto). reflexivity.
    + cbn [mono_mul mg]. apply Hfit; assumption.
  - cbn [grlex_layout lay_can]. unfold can_grlex. rewrite !not_negative by assumption. cbn [orb].
    unfold lead_deg, aget, p, q. cbn [map nth_error obind]. unfold size_checks. cbn [obind]. reflexivity.
  - rewrite E. split; [exact R1|exact R2].
Qed.
End Hook.
