(** * Proofs about the polynomial layer (PolyOps.v), continued: lex orders and leading variables,
      coefficient lists, conversions, univariate operations. *)
From Coq Require Import Ring Setoid Morphisms Sorting.Sorted Permutation.
From Verif Require Import Prelude Coef Spec SpecProofs SpecOps SpecOpsProofs OrderSpec PairVec PairVecProofs Mono MonoProofs
  MonoStruct MonoStructProofs Poly HeapProofs PolyMulProofs PolyOps MonoOpsProofs PolyOpsGen PolyOpsProofs.
Local Open Scope Z_scope.

(** ** Monomials all of whose variables are [v] or come after it *)
Section TopM.
Context (vo : vorder) (Hvo : vorder_ok vo).
Notation ex l v := (csum Zc (N.eqb v) l).
Definition topm (v : var) (m : mono) : Prop := Forall (fun j : var * Z => fst j = v \/ vo v (fst j) = true) (md m).
Lemma topm_shape v m : mok vo m -> topm v m ->
  (md m = [] \/ exists w e l, md m = (w, e) :: l /\ vo v w = true) /\ zexp m v = 0 \/
  (exists e l, md m = (v, e) :: l /\ e = zexp m v /\ 0 < e).
Proof.
  intros H T. apply mok_dok in H. unfold topm in T. unfold zexp. destruct (md m) as [|[w e] l]; [left; split; [left; reflexivity|reflexivity]|].
  apply dok_cons in H as (A & G & D). pose proof (Forall_inv T) as [E|E]; cbn [fst snd] in *.
  - subst w. right. exists e, l. split; [reflexivity|]. cbn [csum]. rewrite N.eqb_refl.
    rewrite (ex_before vo Hvo v l G). split; [simpl; lia|exact A].
  - left. split; [right; exists w, e, l; auto|]. apply (ex_before vo Hvo v ((w, e) :: l)). constructor; [exact E|].
    apply (Forall_vo_trans vo Hvo v w); assumption.
Qed.
Lemma up_deg_top v m : mok vo m -> topm v m -> up_deg v m = zexp m v.
Proof.
  intros H T. unfold up_deg. destruct (topm_shape v m H T) as [[[E|(w & e & l & E & Hw)] Z]|(e & l & E & -> & P)]; rewrite E.
  - symmetry. exact Z.
  - destruct (N.eqb_spec w v) as [e0|n]; [|symmetry; exact Z]. subst w. rewrite (vo_irrefl vo Hvo) in Hw. discriminate.
  - rewrite N.eqb_refl. reflexivity.
Qed.
Lemma tl_top v m : mok vo m -> topm v m -> 0 < zexp m v -> re_deg (tl (md m)) = change_var_deg vo m v 0.
Proof.
  intros H T P. destruct (topm_shape v m H T) as [[_ Z]|(e & l & E & _ & _)]; [lia|].
  unfold change_var_deg. rewrite E. cbn [tl cvd]. rewrite N.eqb_refl. reflexivity.
Qed.
Lemma cvd_top0 v m : mok vo m -> topm v m -> zexp m v = 0 -> change_var_deg vo m v 0 = m.
Proof.
  intros H T P. destruct (change_var_deg_spec vo Hvo m v 0 H) as [H1 X]; [lia|].
  apply (mok_ext vo Hvo); [exact H1|exact H|]. intros w. rewrite (X w). destruct (N.eqb_spec w v) as [e0|n]; [subst w; lia|reflexivity].
Qed.
Lemma change_up_top v m : mok vo m -> topm v m -> change_up v m 0 = change_var_deg vo m v 0.
Proof.
  intros H T. unfold change_up. cbn [Z.eqb]. rewrite (up_deg_top v m H T). pose proof (zexp_nonneg vo m v H).
  destruct (Z.eqb_spec (zexp m v) 0) as [E|E]; [symmetry; apply cvd_top0; assumption|apply tl_top; [assumption|assumption|lia]].
Qed.
Lemma topm_keys v m w : mok vo m -> topm v m -> 0 < zexp m w -> w = v \/ vo v w = true.
Proof.
  intros H T P. apply (ex_pos_in vo Hvo (md m) w (mok_dok vo m H)) in P. apply in_map_iff in P as (t & <- & Hin).
  unfold topm in T. rewrite Forall_forall in T. apply T, Hin.
Qed.
Lemma topm_of v m : mok vo m -> (forall w, 0 < zexp m w -> w = v \/ vo v w = true) -> topm v m.
Proof.
  intros H X. apply Forall_forall. intros t Hin. apply X. apply (ex_pos_in vo Hvo (md m) (fst t) (mok_dok vo m H)).
  apply in_map, Hin.
Qed.

(** lexicographic comparison of such monomials compares the exponents of [v] first *)
Lemma lex_first a b v : mok vo a -> mok vo b -> topm v a -> lex_gt vo a b = true -> topm v b /\ zexp b v <= zexp a v.
Proof.
  intros Ha Hb T G. apply (lex_gt_spec vo Hvo a b Ha Hb) in G as (w & L & Eq).
  assert (Hw : w = v \/ vo v w = true).
  { apply (topm_keys v a w Ha T). pose proof (zexp_nonneg vo b w Hb). lia. }
  assert (Tb : topm v b).
  { apply (topm_of v b Hb). intros u Hu. destruct (vo_total vo Hvo v u) as [->|[X|X]]; [auto|auto|]. exfalso.
    assert (vo u w = true) as Y by (destruct Hw as [->|Hw]; [exact X|apply (vo_trans vo Hvo u v w); assumption]).
    rewrite <- (Eq u Y) in Hu. destruct (topm_keys v a u Ha T Hu) as [->|Z].
    - rewrite (vo_irrefl vo Hvo) in X. discriminate.
    - pose proof (vo_trans vo Hvo u v u X Z) as Q. rewrite (vo_irrefl vo Hvo) in Q. discriminate. }
  split; [exact Tb|]. destruct Hw as [->|Hw]; [lia|]. rewrite (Eq v Hw). lia.
Qed.
Lemma lex_gt_deg a b v : mok vo a -> mok vo b -> topm v a -> topm v b -> zexp b v < zexp a v -> lex_gt vo a b = true.
Proof.
  intros Ha Hb Ta Tb L. apply (lex_gt_spec vo Hvo a b Ha Hb). exists v. split; [exact L|]. intros u Hu.
  assert (Z : forall m, mok vo m -> topm v m -> zexp m u = 0).
  { intros m Hm T. pose proof (zexp_nonneg vo m u Hm). destruct (Z.eq_dec (zexp m u) 0) as [E|E]; [exact E|].
    destruct (topm_keys v m u Hm T) as [e|X]; [lia| |].
    - subst u. rewrite (vo_irrefl vo Hvo) in Hu. discriminate.
    - pose proof (vo_trans vo Hvo u v u Hu X) as Q. rewrite (vo_irrefl vo Hvo) in Q. discriminate. }
  rewrite !Z by assumption. reflexivity.
Qed.
End TopM.
Lemma topm_univ v m : topm (vuniv v) v m.
Proof.
  apply Forall_forall. intros t _. destruct (N.eqb_spec (fst t) v) as [e|n]; [left; exact e|right].
  unfold vuniv. rewrite N.eqb_refl. destruct (N.eqb_spec (fst t) v); [contradiction|reflexivity].
Qed.

Section L.
Context (vo : vorder) (Hvo : vorder_ok vo) {C : Type} (K : coefs C) (HK : ring_ok K).
Add Ring Kring : (ring_laws K HK).
Add Ring Rring : (rring K HK) (setoid (req_equiv K) (rring_ext K HK)).
Notation gt := (lex_gt vo).
Notation norm := (normal (mok vo) gt K).
Notation graw := (graw sm).
Notation poly := (poly C).
Let HS := lexS_ok vo Hvo.
Let HSS : lexS vo = lexS vo \/ lexS vo = grlexS vo := or_introl eq_refl.

Definition topp (v : var) (p : poly) : Prop := Forall (fun t => topm vo v (fst t)) p.
Lemma topp_univ v (p : poly) : vo = vuniv v -> topp v p.
Proof. intros E. apply Forall_forall. intros t _. rewrite E. apply topm_univ. Qed.
Lemma topp_head v t p : norm (t :: p) -> topm vo v (fst t) ->
  topp v (t :: p) /\ Forall (fun u => zexp (fst u) v <= zexp (fst t) v) (t :: p).
Proof.
  intros N T. apply (normal_cons (mok vo) gt K) in N as (Ot & _ & G & Np). destruct Np as (A & _).
  assert (X : Forall (fun u => topm vo v (fst u) /\ zexp (fst u) v <= zexp (fst t) v) p).
  { apply Forall_forall. intros u Hu. unfold all_ok in A. rewrite Forall_forall in G, A. apply (lex_first vo Hvo) with (a := fst t); try assumption; [apply A, Hu|apply G, Hu]. }
  split; constructor; try assumption; try lia; eapply Forall_impl; try exact X; cbn beta; tauto.
Qed.
(** the head of the leading monomial is a top variable *)
Lemma first_top (p : poly) t : norm (t :: p) -> md (fst t) <> [] -> topp (first_var (t :: p)) (t :: p).
Proof.
  intros N E. apply topp_head; [exact N|]. cbn [first_var]. unfold mfirst_var.
  apply (normal_cons (mok vo) gt K) in N as (Ot & _). apply mok_dok in Ot. unfold topm.
  destruct (md (fst t)) as [|[w e] l]; [congruence|]. apply dok_cons in Ot as (_ & G & _).
  constructor; [left; reflexivity|]. eapply Forall_impl; [|exact G]. cbn [fst]. intros u Hu. right. exact Hu.
Qed.
Lemma first_const (p : poly) t : norm (t :: p) -> md (fst t) = [] -> fst t = mono1 /\ p = [].
Proof.
  intros N E. apply (normal_cons (mok vo) gt K) in N as (Ot & _ & G & Np).
  assert (E1 : fst t = mono1) by (apply (mok_eq vo); [exact Ot|apply mok_1|exact E]). split; [exact E1|].
  destruct p as [|u p]; [reflexivity|]. inversion G as [|? ? G1 _]; subst. unfold lex_gt in G1. rewrite E in G1. discriminate.
Qed.
Lemma top_deg v (p : poly) t : norm (t :: p) -> topm vo v (fst t) -> p_degree (t :: p) v = zexp (fst t) v.
Proof.
  intros N T. destruct (topp_head v t p N T) as [_ L].
  destruct (max_deg_spec (fun m => mono_deg m v) (t :: p)) as (A & _ & D).
  { intros u Hu. apply (mdeg_nonneg vo Hvo (lexS vo) K (t :: p)); assumption. }
  destruct D as (u & Hu & E); [discriminate|]. fold (p_degree (t :: p) v) in E. cbv beta in E.
  pose proof (p_degree_max vo Hvo (lexS vo) K (t :: p) v t N (or_introl eq_refl)) as M.
  rewrite Forall_forall in L. specialize (L u Hu). cbv beta in L.
  destruct (norm_in (lexS vo) (mok vo) K _ u N Hu) as [Ou _]. rewrite (mok_mono_deg vo Hvo _ v Ou) in E. lia.
Qed.
Lemma p_degree_lex_spec (p : poly) v : norm p -> p_degree_lex vo p v = p_degree p v.
Proof.
  intros N. unfold p_degree_lex. destruct p as [|t p]; [reflexivity|].
  destruct (md (fst t)) as [|[w e] l] eqn:E.
  - destruct (first_const p t N E) as [E1 ->]. unfold first_var, first_deg, mfirst_var, mfirst_deg. rewrite E.
    assert (p_degree [t] v = 0) as Z by (unfold p_degree, max_deg, mono_deg; cbn; rewrite E; reflexivity).
    rewrite Z. destruct (N.eqb 0 v); [reflexivity|]. destruct (vo v 0%N); reflexivity.
  - assert (T : topp (first_var (t :: p)) (t :: p)) by (apply first_top; [exact N|rewrite E; discriminate]).
    cbn [first_var] in T. unfold first_var, first_deg, mfirst_var, mfirst_deg in *. rewrite E in *.
    assert (Tt : topm vo w (fst t)) by (inversion T; assumption).
    destruct (norm_in (lexS vo) (mok vo) K _ t N (or_introl eq_refl)) as [Ot _].
    destruct (N.eqb_spec w v) as [e0|n].
    + subst w. rewrite (top_deg v p t N Tt). destruct (topm_shape vo Hvo v (fst t) Ot Tt) as [[[E'|(w' & e' & l' & E' & Hw)] Z]|(e' & l' & E' & -> & P)]; rewrite E in E'.
      * discriminate.
      * injection E' as <- <- <-. rewrite (vo_irrefl vo Hvo) in Hw. discriminate.
      * injection E' as -> ->. reflexivity.
    + destruct (vo v w) eqn:V; [|reflexivity]. symmetry.
      assert (Z : forall u, In u (t :: p) -> zexp (fst u) v = 0).
      { intros u Hu. destruct (norm_in (lexS vo) (mok vo) K _ u N Hu) as [Ou _]. pose proof (zexp_nonneg vo (fst u) v Ou).
        destruct (Z.eq_dec (zexp (fst u) v) 0) as [e0|n0]; [exact e0|]. unfold topp in T. rewrite Forall_forall in T.
        destruct (topm_keys vo Hvo w (fst u) v Ou (T u Hu)) as [X|X]; [lia|congruence|].
        pose proof (vo_trans vo Hvo _ _ _ V X) as Q. rewrite (vo_irrefl vo Hvo) in Q. discriminate. }
      destruct (max_deg_spec (fun m => mono_deg m v) (t :: p)) as (_ & _ & D).
      { intros u Hu. apply (mdeg_nonneg vo Hvo (lexS vo) K (t :: p)); assumption. }
      destruct D as (u & Hu & Eu); [discriminate|]. fold (p_degree (t :: p) v) in Eu. rewrite <- Eu. cbv beta.
      destruct (norm_in (lexS vo) (mok vo) K _ u N Hu) as [Ou _]. rewrite (mok_mono_deg vo Hvo _ v Ou). apply Z, Hu.
Qed.
End L.

(** ** The terms of a given degree in [v], with [v] removed *)
Section Cls.
Context (vo : vorder) (Hvo : vorder_ok vo) (S : monos mono) (HSS : S = lexS vo \/ S = grlexS vo).
Context {C : Type} (K : coefs C) (HK : ring_ok K).
Add Ring Kring2 : (ring_laws K HK).
Notation gt := (m_gt S).
Notation norm := (normal (mok vo) gt K).
Notation graw := (graw sm).
Let HS := HS vo Hvo S HSS.
Definition cls (v : var) (d : Z) (F : poly C) : poly C :=
  map (fun t => (change_var_deg vo (fst t) v 0, snd t)) (filter (fun t => zexp (fst t) v =? d) F).
Lemma cls_spec v d F : norm F -> 0 <= d ->
  norm (cls v d F) /\ req K (graw (cls v d F)) (rcoeff K v (Z.to_N d) (graw F)).
Proof.
  intros N Hd. split.
  - apply (norm_map_cancel S (mok vo) sm K HS (fun t => change_var_deg vo (fst t) v 0) snd (umono v d)).
    + apply (umono_spec vo v d Hd).
    + intros t Ht. apply filter_In in Ht as [Hin Et]. destruct (norm_in S (mok vo) K F t N Hin) as [O _].
      apply Z.eqb_eq in Et.
      split; [apply (change_var_deg_spec vo Hvo); [exact O|lia]|]. rewrite (S_mul vo S HSS).
      replace 0 with (zexp (fst t) v - d) by lia. apply (split_var vo Hvo); [exact O|lia].
    + intros t Ht. apply filter_In in Ht as [Hin _]. apply (norm_in S (mok vo) K F t N Hin).
    + apply (norm_filter S (mok vo) K), N.
  - unfold cls. rewrite <- (flat_map_if (fun t : mono * C => zexp (fst t) v =? d)).
    apply (graw_rlin sm K HK). intros t Ht. destruct (norm_in S (mok vo) K F t N Ht) as [O _].
    rewrite (exp_sm_mok vo _ v O). pose proof (zexp_nonneg vo (fst t) v O).
    destruct (Z.eqb_spec (zexp (fst t) v) d) as [E'|E'].
    + rewrite E', N.eqb_refl. cbn [MonoStruct.graw map fst snd]. apply (req_single K); [|ring].
      destruct (change_var_deg_spec vo Hvo (fst t) v 0 O) as [O' X]; [lia|]. apply (sm_drop vo); assumption.
    + destruct (N.eqb_spec (Z.to_N (zexp (fst t) v)) (Z.to_N d)) as [E2|E2]; [lia|reflexivity].
Qed.
End Cls.

Section Coeff.
Context (vo : vorder) (Hvo : vorder_ok vo) {C : Type} (K : coefs C) (HK : ring_ok K).
Notation gt := (lex_gt vo).
Notation norm := (normal (mok vo) gt K).
Notation graw := (graw sm).
Notation poly := (poly C).
Notation cls := (cls vo).
Variable v : var.

Lemma cls_cons d t (F : poly) : cls v d (t :: F) = if zexp (fst t) v =? d then (change_var_deg vo (fst t) v 0, snd t) :: cls v d F else cls v d F.
Proof. unfold PolyOps2Proofs.cls. cbn [filter]. destruct (zexp (fst t) v =? d); reflexivity. Qed.
Lemma cls_none d (F : poly) : Forall (fun t => zexp (fst t) v <> d) F -> cls v d F = [].
Proof.
  induction 1 as [|t F Ht _ IH]; [reflexivity|]. rewrite cls_cons. destruct (Z.eqb_spec (zexp (fst t) v) d); [contradiction|exact IH].
Qed.
Lemma cls_zero (F : poly) : norm F -> topp vo v F -> Forall (fun t => zexp (fst t) v <= 0) F -> cls v 0 F = F.
Proof.
  intros (A & _ & _) T L. unfold all_ok in A. induction F as [|[m c] F IH]; [reflexivity|]. rewrite cls_cons.
  inversion A; inversion T; inversion L; subst. cbn [fst snd] in *. pose proof (zexp_nonneg vo m v ltac:(assumption)).
  destruct (Z.eqb_spec (zexp m v) 0) as [E|E]; [|lia]. rewrite (cvd_top0 vo Hvo v m) by assumption. rewrite IH by assumption. reflexivity.
Qed.
Lemma norm_tail t (F : poly) : norm (t :: F) -> norm F.
Proof. intros N. apply (normal_cons (mok vo) gt K) in N. apply N. Qed.
Lemma deg_tail t (F : poly) : norm (t :: F) -> topp vo v (t :: F) -> Forall (fun u => zexp (fst u) v <= zexp (fst t) v) F.
Proof.
  intros N T. inversion T as [|? ? Tt _]; subst. destruct (topp_head vo Hvo K v t F N Tt) as [_ L]. inversion L; assumption.
Qed.
Lemma lead_up_cls d (F : poly) : norm F -> topp vo v F -> Forall (fun t => zexp (fst t) v <= d) F -> lead_up_go v d F = cls v d F.
Proof.
  induction F as [|t F IH]; intros N T L; [reflexivity|]. cbn [lead_up_go]. rewrite cls_cons.
  pose proof (deg_tail t F N T) as Lt. inversion T as [|? ? Tt Tf]; inversion L as [|? ? L1 Lf]; subst.
  destruct (norm_in (lexS vo) (mok vo) K _ t N (or_introl eq_refl)) as [Ot _].
  rewrite (up_deg_top vo Hvo v _ Ot Tt), (change_up_top vo Hvo v _ Ot Tt).
  destruct (Z.eqb_spec (zexp (fst t) v) d) as [E|E]; cbn [negb].
  - rewrite IH; [reflexivity|apply (norm_tail t F N)|exact Tf|exact Lf].
  - symmetry. apply cls_none. eapply Forall_impl; [|exact Lt]. cbn beta. intros u Hu. lia.
Qed.
Lemma lead_lex_cls d (F : poly) : 0 < d -> norm F -> topp vo v F -> Forall (fun t => zexp (fst t) v <= d) F -> lead_lex_go v d F = cls v d F.
Proof.
  intros Hd. induction F as [|t F IH]; intros N T L; [reflexivity|]. cbn [lead_lex_go]. rewrite cls_cons.
  pose proof (deg_tail t F N T) as Lt. inversion T as [|? ? Tt Tf]; inversion L as [|? ? L1 Lf]; subst.
  destruct (norm_in (lexS vo) (mok vo) K _ t N (or_introl eq_refl)) as [Ot _].
  assert (Nil : zexp (fst t) v <> d -> [] = cls v d F).
  { intros Hn. symmetry. apply cls_none. eapply Forall_impl; [|exact Lt]. cbn beta. intros u Hu. lia. }
  destruct (topm_shape vo Hvo v (fst t) Ot Tt) as [[[E'|(w' & e' & l' & E' & Hw)] Z]|(e' & l' & E' & Ee & P)]; rewrite E'.
  - destruct (Z.eqb_spec (zexp (fst t) v) d) as [E|E]; [lia|apply Nil; exact E].
  - destruct (N.eqb_spec w' v) as [e0|n]; [subst w'; rewrite (vo_irrefl vo Hvo) in Hw; discriminate|]. cbn [andb].
    destruct (Z.eqb_spec (zexp (fst t) v) d) as [E|E]; [lia|apply Nil; exact E].
  - rewrite N.eqb_refl, Ee. cbn [andb]. destruct (Z.eqb_spec (zexp (fst t) v) d) as [E|E]; [|apply Nil; exact E].
    rewrite IH; [|apply (norm_tail t F N)|exact Tf|exact Lf]. f_equal. f_equal. rewrite <- (tl_top vo Hvo v (fst t) Ot Tt) by lia. rewrite E'. reflexivity.
Qed.
Lemma p_up_deg_top (F : poly) : norm F -> topp vo v F -> p_up_deg v F = p_degree F v.
Proof.
  intros N T. destruct F as [|t F]; [reflexivity|]. inversion T as [|? ? Tt Tf]; subst.
  destruct (norm_in (lexS vo) (mok vo) K _ t N (or_introl eq_refl)) as [Ot _].
  cbn [p_up_deg]. rewrite (up_deg_top vo Hvo v _ Ot Tt). symmetry. apply (top_deg vo Hvo K); assumption.
Qed.
Lemma deg_all (F : poly) : norm F -> Forall (fun t => zexp (fst t) v <= p_degree F v) F.
Proof. intros N. apply Forall_forall. intros t Ht. apply (p_degree_max vo Hvo (lexS vo) K); assumption. Qed.
Lemma leadcoeff_up_spec (F : poly) : norm F -> topp vo v F ->
  leadcoeff_up v F = (cls v (p_degree F v) F, p_degree F v).
Proof.
  intros N T. unfold leadcoeff_up. rewrite p_up_deg_top by assumption. pose proof (deg_all F N) as L.
  destruct (Z.eqb_spec (p_degree F v) 0) as [E|E].
  - rewrite E in *. rewrite cls_zero by assumption. reflexivity.
  - rewrite lead_up_cls by assumption. reflexivity.
Qed.
Lemma aset_spec (l : list poly) i (x : poly) : (i < length l)%nat -> exists l', aset l i x = Ok l' /\ length l' = length l /\
  forall d j, nth j l' d = if Nat.eqb j i then x else nth j l d.
Proof.
  intros H. unfold aset. destruct (Nat.ltb_spec i (length l)) as [_|L]; [|lia]. eexists. split; [reflexivity|].
  split; [apply length_lset|]. intros d j.
  destruct (Nat.eqb_spec j i) as [->|n]; [apply nth_lset_eq, H|apply nth_lset_neq; lia].
Qed.
Lemma coeff_go_spec (F : poly) : norm F -> topp vo v F -> forall m tmp coF,
  0 <= m -> (Z.to_nat m < length coF)%nat -> Forall (fun t => zexp (fst t) v <= m) F ->
  (forall j, (j < Z.to_nat m)%nat -> nth j coF [] = []) ->
  exists cs, coeff_go v m tmp coF F = Ok cs /\ length cs = length coF /\
   forall j, nth j cs [] = if Nat.eqb j (Z.to_nat m) then tmp ++ cls v m F
                           else if (Z.to_nat m <? j)%nat then nth j coF [] else cls v (Z.of_nat j) F.
Proof.
  induction F as [|t F IH]; intros N T m tmp coF Hm Hl Hd Hz; cbn [coeff_go].
  - destruct (aset_spec coF (Z.to_nat m) tmp Hl) as (l' & -> & L & X). exists l'. split; [reflexivity|]. split; [exact L|].
    intros j. rewrite X. change (cls v m []) with (@nil (mono * C)). rewrite app_nil_r. destruct (Nat.eqb_spec j (Z.to_nat m)) as [|n]; [reflexivity|].
    destruct (Nat.ltb_spec (Z.to_nat m) j) as [|L2]; [reflexivity|]. apply Hz. lia.
  - pose proof (deg_tail t F N T) as Lt. inversion T as [|? ? Tt Tf]; inversion Hd as [|? ? L1 Lf]; subst.
    destruct (norm_in (lexS vo) (mok vo) K _ t N (or_introl eq_refl)) as [Ot _].
    rewrite (up_deg_top vo Hvo v _ Ot Tt), (change_up_top vo Hvo v _ Ot Tt).
    pose proof (zexp_nonneg vo (fst t) v Ot) as Zn.
    destruct (Z.eqb_spec (zexp (fst t) v) m) as [E|E]; cbn [negb].
    + destruct (IH (norm_tail t F N) Tf m (tmp ++ [(change_var_deg vo (fst t) v 0, snd t)]) coF Hm Hl Lf Hz) as (cs & E1 & E2 & E3).
      exists cs. split; [exact E1|]. split; [exact E2|]. intros j. rewrite E3. rewrite !cls_cons.
      destruct (Nat.eqb_spec j (Z.to_nat m)) as [->|n].
      * rewrite E, Z.eqb_refl. rewrite <- app_assoc. reflexivity.
      * destruct (Nat.ltb_spec (Z.to_nat m) j) as [|L2]; [reflexivity|]. destruct (Z.eqb_spec (zexp (fst t) v) (Z.of_nat j)); [lia|reflexivity].
    + destruct (aset_spec coF (Z.to_nat m) tmp Hl) as (l' & -> & L & X). cbn [obind].
      destruct (IH (norm_tail t F N) Tf (zexp (fst t) v) [(change_var_deg vo (fst t) v 0, snd t)] l') as (cs & E1 & E2 & E3);
        [exact Zn|apply (Nat.le_lt_trans _ (Z.to_nat m)); [lia|]; apply (Nat.lt_le_trans _ _ _ Hl); apply Nat.eq_le_incl; symmetry; exact L|exact Lt|intros j Hj; rewrite X; destruct (Nat.eqb_spec j (Z.to_nat m)); [lia|apply Hz; lia]|].
      exists cs. split; [exact E1|]. split; [transitivity (length l'); [exact E2|exact L]|]. intros j. rewrite E3. rewrite !cls_cons.
      destruct (Nat.eqb_spec j (Z.to_nat m)) as [->|n].
      * destruct (Z.eqb_spec (zexp (fst t) v) m); [contradiction|]. rewrite (cls_none m F), app_nil_r.
        -- destruct (Nat.eqb_spec (Z.to_nat m) (Z.to_nat (zexp (fst t) v))); [lia|].
           destruct (Nat.ltb_spec (Z.to_nat (zexp (fst t) v)) (Z.to_nat m)); [|lia]. rewrite X, Nat.eqb_refl. reflexivity.
        -- eapply Forall_impl; [|exact Lt]. cbn beta. intros u Hu. lia.
      * destruct (Nat.eqb_spec j (Z.to_nat (zexp (fst t) v))) as [e1|n1].
        -- destruct (Nat.ltb_spec (Z.to_nat m) j); [lia|]. destruct (Z.eqb_spec (zexp (fst t) v) (Z.of_nat j)); [|lia].
           replace (Z.of_nat j) with (zexp (fst t) v) by lia. reflexivity.
        -- destruct (Nat.ltb_spec (Z.to_nat (zexp (fst t) v)) j).
           ++ rewrite X. destruct (Nat.eqb_spec j (Z.to_nat m)); [contradiction|]. destruct (Nat.ltb_spec (Z.to_nat m) j); [reflexivity|].
              destruct (Z.eqb_spec (zexp (fst t) v) (Z.of_nat j)); [lia|]. rewrite Hz by lia. symmetry. apply cls_none.
              eapply Forall_impl; [|exact Lt]. cbn beta. intros u Hu. lia.
           ++ destruct (Nat.ltb_spec (Z.to_nat m) j); [lia|]. destruct (Z.eqb_spec (zexp (fst t) v) (Z.of_nat j)); [lia|]. reflexivity.
Qed.
Lemma coeff_up_spec (F : poly) : norm F -> topp vo v F ->
  exists cs, coeff_up v F = Ok cs /\ length cs = Z.to_nat (p_degree F v + 1) /\
   forall j, (j < length cs)%nat -> nth j cs [] = cls v (Z.of_nat j) F.
Proof.
  intros N T. unfold coeff_up. rewrite p_up_deg_top by assumption.
  assert (Hd : 0 <= p_degree F v) by apply (p_degree_spec vo Hvo (lexS vo) (or_introl eq_refl) K HK F v N).
  destruct (coeff_go_spec F N T (p_degree F v) [] (repeat [] (Z.to_nat (p_degree F v + 1)))) as (cs & E & L & X).
  - exact Hd.
  - rewrite repeat_length. lia.
  - apply deg_all, N.
  - intros j _. apply nth_repeat.
  - rewrite repeat_length in L. exists cs. split; [exact E|]. split; [exact L|]. intros j Hj. rewrite X.
    destruct (Nat.eqb_spec j (Z.to_nat (p_degree F v))) as [->|n]; [rewrite Z2Nat.id by exact Hd; reflexivity|].
    destruct (Nat.ltb_spec (Z.to_nat (p_degree F v)) j); [lia|reflexivity].
Qed.
End Coeff.
