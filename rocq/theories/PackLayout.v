(** * Packed monomials: the two layouts are faithful on monomials whose fields fit. *)
From Coq Require Import Sorting.Sorted.
From Verif Require Import Prelude Coef Spec OrderSpec PairVec PairVecProofs Mono MonoProofs MonoStruct Pack PackProofs.
Local Open Scope Z_scope.

Record packing (vo : vorder) (gt : mono -> mono -> bool) (L : layout) (vars : list var) (okm : mono -> Prop)
  (code : mono -> Z) : Prop := {
  pk_mok : forall m, okm m -> mok vo m;
  pk_incl : forall m, okm m -> incl (map fst (md m)) vars;
  pk_pack : forall m, okm m -> lay_pack L vars m = Ok (code m);
  pk_unpack : forall m, okm m -> lay_unpack L vars (code m) = Ok m;
  pk_range : forall m, okm m -> 0 <= code m < two64;
  pk_add : forall a b, okm a -> okm b -> code (mono_mul vo a b) = code a + code b;
  pk_gt : forall a b, okm a -> okm b -> gt a b = true -> code b < code a;
}.

Section L.
Variable vo : vorder.
Context (Hvo : vorder_ok vo).
Variable strict : bool.
Variable vars : list var.
Context (Hvs : vsorted vo vars).
Notation n := (len vars).

Lemma zexp_out m v : incl (map fst (md m)) vars -> ~ In v vars -> zexp m v = 0.
Proof.
  intros Hi Hn. apply (csum_notin Zc). intros a Ha. destruct (N.eqb_spec v a) as [->|]; [|reflexivity].
  exfalso. apply Hn, Hi, Ha.
Qed.
Lemma spread_zexp m : mok vo m -> incl (map fst (md m)) vars -> spread (zexp m) vars = md m.
Proof. intros Hm Hi. apply (spread_ok vo Hvo vars Hvs). split; [apply mok_dok, Hm|exact Hi]. Qed.

(** a monomial with no exponent at all *)
Lemma md_nil_mono1 m : mok vo m -> md m = [] -> m = mono1.
Proof. intros (_ & _ & Hg) E. destruct m as [d g]. cbn in *. subst d. cbn in Hg. subst g. reflexivity. Qed.

Lemma E_lex_gt B (HB : 0 < B) a b x : mok vo a -> mok vo b -> incl (map fst (md a)) vars -> incl (map fst (md b)) vars ->
  (forall v, zexp a v < B) -> (forall v, zexp b v < B) ->
  lex_spec vo (zexp a) (zexp b) -> E B (zexp b) vars x < E B (zexp a) vars x.
Proof.
  intros Ha Hb Ia Ib La Lb (v & Hv & Hw).
  assert (Hin : In v vars).
  { destruct (in_dec N.eq_dec v vars) as [|Hn]; [assumption|]. rewrite !zexp_out in Hv by assumption. lia. }
  apply in_split in Hin as (p & s & Es).
  assert (Hp : forall w, In w p -> vo w v = true).
  { intros w Hwp. pose proof Hvs as S. rewrite Es in S. clear - S Hwp. induction p as [|y p IH]; [destruct Hwp|].
    cbn in S. apply StronglySorted_inv in S as [S1 S2]. destruct Hwp as [<-|Hwp]; [|auto].
    rewrite Forall_forall in S2. apply S2, in_or_app. right. left. reflexivity. }
  rewrite Es. apply E_lt; [exact HB|..].
  - intros w Hwp. symmetry. auto.
  - exact Hv.
  - intros w _. split; [apply zexp_nonneg with vo; assumption|auto].
  - intros w _. split; [apply zexp_nonneg with vo; assumption|auto].
Qed.

Lemma E_mono1 B : E B (zexp mono1) vars 0 = 0.
Proof.
  assert (G : forall l, E B (zexp mono1) l 0 = 0).
  { induction l as [|v l IH]; [reflexivity|]. change (E B (zexp mono1) (v :: l) 0) with (E B (zexp mono1) l (0 * B + 0)).
    rewrite Z.mul_0_l, Z.add_0_l. exact IH. }
  apply G.
Qed.
Lemma E_mul B a b x y : E B (zexp (mono_mul vo a b)) vars (x + y) = E B (zexp a) vars x + E B (zexp b) vars y.
Proof. apply E_add. intros v _. apply (zexp_mul vo). Qed.
Lemma n_pos_vars : vars <> [] -> 1 <= n.
Proof. destruct vars; [congruence|]. intros _. rewrite len_cons. pose proof (len_nonneg l). lia. Qed.

(** ** lex *)
Definition lex_lim (k : Z) : Z := if k =? 1 then two63 else 2 ^ (64 / k).
Definition lex_fits (m : mono) : Prop :=
  mok vo m /\ incl (map fst (md m)) vars /\ forall v, zexp m v < lex_lim n.
Definition lex_code (m : mono) : Z := E (2 ^ (64 / n)) (zexp m) vars 0.

Lemma div_bounds k : 2 <= k <= 64 -> 1 <= 64 / k <= 32 /\ (64 / k) * k <= 64.
Proof.
  intros Hk. pose proof (Z.mul_div_le 64 k ltac:(lia)). split; [split|lia].
  - apply Z.div_le_lower_bound; lia.
  - apply Z.div_le_upper_bound; lia.
Qed.
Lemma pow2_le_63 l : 0 <= l <= 63 -> 2 ^ l <= two63.
Proof. intros. apply Z.pow_le_mono_r; lia. Qed.
Lemma two63_lt : two63 < two64. Proof. reflexivity. Qed.

Lemma lex_code_1 v m : vars = [v] -> lex_code m = zexp m v.
Proof. intros Ev. unfold lex_code. rewrite Ev. cbn [E fold_left]. ring. Qed.

Lemma lex_code_gt a b : n <= 64 -> lex_fits a -> lex_fits b -> lex_gt vo a b = true -> lex_code b < lex_code a.
Proof.
  intros Hn (Ha & Ia & La) (Hb & Ib & Lb) Hg. apply (lex_gt_spec vo Hvo a b Ha Hb) in Hg.
  unfold lex_code. destruct (Z.eq_dec n 1) as [E1|N1].
  - apply E_lex_gt; try assumption; rewrite E1 in *; [reflexivity| |]; intros v.
    + specialize (La v). change (lex_lim 1) with two63 in La. pose proof two63_lt. change (2 ^ (64 / 1)) with two64. lia.
    + specialize (Lb v). change (lex_lim 1) with two63 in Lb. pose proof two63_lt. change (2 ^ (64 / 1)) with two64. lia.
  - assert (Hlim : lex_lim n = 2 ^ (64 / n)) by (unfold lex_lim; destruct (Z.eqb_spec n 1); [contradiction|reflexivity]).
    rewrite Hlim in *. apply E_lex_gt; try assumption. apply Z.pow_pos_nonneg; [lia|].
    pose proof (len_nonneg vars). destruct (Z.eq_dec n 0) as [->|]; [cbn; lia|]. apply Z.div_pos; lia.
Qed.

Lemma md_fst_In m v : In v (map fst (md m)) -> mok vo m -> 0 < zexp m v.
Proof.
  intros Hi Hm. pose proof (mok_dok vo m Hm) as [Hd Hp]. unfold zexp.
  apply in_map_iff in Hi as ([w e] & Ew & Hi). cbn in Ew. subst w.
  revert Hi Hp. clear. intros Hi Hp. induction (md m) as [|[a c] l IH]; [destruct Hi|].
  apply Forall_cons_iff in Hp as [P1 P2]. cbn [csum]. pose proof (exp_pos_nonneg l v P2) as NN.
  destruct Hi as [[= -> ->]|Hi].
  - rewrite N.eqb_refl. cbn in *. lia.
  - specialize (IH Hi P2). destruct (N.eqb v a); cbn in *; lia.
Qed.

Lemma lex_fits_one : lex_fits mono1 \/ lex_lim n <= 0.
Proof.
  destruct (Z.leb_spec (lex_lim n) 0); [right; assumption|left]. split; [apply mok_1|]. split; [intros ? []|].
  intros v. exact H.
Qed.

Theorem lex_packing : n <= 64 -> (strict = false \/ n * (64 / n) <> 64) ->
  packing vo (lex_gt vo) (lex_layout strict vo) vars lex_fits lex_code.
Proof.
  intros Hn Hst.
  assert (Lpos : 0 < lex_lim n).
  { unfold lex_lim. destruct (n =? 1); [reflexivity|]. apply Z.pow_pos_nonneg; [lia|].
    pose proof (len_nonneg vars). destruct (Z.eq_dec n 0) as [->|]; [cbn; lia|]. apply Z.div_pos; lia. }
  assert (One : lex_fits mono1) by (destruct lex_fits_one; [assumption|lia]).
  assert (Code1 : lex_code mono1 = 0) by apply E_mono1.
  assert (Pos : forall m, lex_fits m -> m <> mono1 -> 0 < lex_code m).
  { intros m Hm Hne. rewrite <- Code1. apply lex_code_gt; try assumption.
    apply (lex_1_least vo); [apply Hm|exact Hne]. }
  split.
  - intros m Hm. apply Hm.
  - intros m Hm. apply Hm.
  - (* pack *)
    intros m (Hm & Hi & Hl). cbn [lex_layout lay_pack]. unfold pack_lex.
    destruct (md m) as [|t d] eqn:Ed.
    { rewrite (md_nil_mono1 m Hm Ed), Code1. reflexivity. }
    destruct vars as [|v0 vs] eqn:Ev; [exfalso; apply (Hi (fst t)); left; reflexivity|]. rewrite <- Ev in *. rewrite <- Ed in *.
    change (Z.of_nat (length vars)) with n.
    assert (N1 : 1 <= n) by (apply n_pos_vars; rewrite Ev; discriminate).
    destruct (Z.eq_dec n 1) as [E1|Nn].
    + assert (vs = []) as -> by (destruct vs; [reflexivity|]; rewrite Ev in E1; rewrite !len_cons in E1; pose proof (len_nonneg vs); lia).
      assert (strict = false) as -> by (destruct Hst as [|Hst]; [assumption|rewrite E1 in Hst; exfalso; apply Hst; reflexivity]).
      rewrite (lex_code_1 v0 m Ev). rewrite E1. change (64 / 1) with 64. rewrite Ev. cbn [pack_loop].
      change (shl64 false 0 64) with (Ok 0). cbn [obind].
      pose proof (fits_step vo Hvo v0 (fst t) (snd t) d []) as F. rewrite <- surjective_pairing in F. rewrite <- Ed in F.
      specialize (F ltac:(constructor; constructor)). 
      assert (Hfv : fits_vars vo (md m) [v0]) by (split; [apply mok_dok, Hm|rewrite <- Ev; exact Hi]). specialize (F Hfv).
      pose proof (Hl v0) as Hl0. rewrite E1 in Hl0. change (lex_lim 1) with two63 in Hl0. fold (zexp m v0) in F.
      rewrite Ed. destruct t as [w e]. cbn [fst snd] in F. destruct (N.eqb v0 w).
      * destruct F as (F1 & F2 & _). rewrite <- F1 in *. f_equal. rewrite Z.add_0_l. apply wrap64_small. pose proof two63_lt. lia.
      * destruct F as (F1 & [_ F2]). exfalso. rewrite Ed in F2. apply (F2 w). left. reflexivity.
    + assert (Hlim : lex_lim n = 2 ^ (64 / n)) by (unfold lex_lim; destruct (Z.eqb_spec n 1); [contradiction|reflexivity]).
      destruct (div_bounds n ltac:(lia)) as [B1 B2].
      apply (pack_loop_ok vo Hvo strict (64 / n) vars); [lia|exact Hvs|split; [apply mok_dok, Hm|exact Hi]| |lia|].
      * intros v _. rewrite <- Hlim. apply Hl.
      * rewrite Z.add_0_l, Z.mul_1_l, <- Z.pow_mul_r by lia. apply Z.pow_le_mono_r; lia.
  - (* unpack *)
    intros m Hm. pose proof Hm as (Hmk & Hi & Hl). cbn [lex_layout lay_unpack]. unfold unpack_lex.
    destruct vars as [|v0 vs] eqn:Ev.
    { f_equal. symmetry. apply md_nil_mono1; [exact Hmk|]. destruct (md m) as [|t d]; [reflexivity|]. exfalso. apply (Hi (fst t)). left. reflexivity. }
    rewrite <- Ev in *.
    destruct (Z.eqb_spec (lex_code m) 0) as [E0|N0].
    { f_equal. destruct (mono_eqb m mono1) eqn:Em; [apply mono_eqb_iff in Em; auto|].
      assert (m <> mono1) by (intros ->; rewrite (proj2 (mono_eqb_iff mono1 mono1) eq_refl) in Em; discriminate).
      specialize (Pos m Hm H). lia. }
    change (Z.of_nat (length vars)) with n.
    assert (N1 : 1 <= n) by (apply n_pos_vars; rewrite Ev; discriminate).
    assert (Fin : forall d, d = md m -> Mono (md mono1 ++ d) (mg mono1 + deg_sum d) = m).
    { intros d ->. cbn. destruct m as [d g]. cbn in *. f_equal. destruct Hmk as (_ & _ & Hg). cbn in Hg. lia. }
    destruct (Z.eq_dec n 1) as [E1|Nn].
    + assert (vs = []) as -> by (destruct vs; [reflexivity|]; rewrite Ev in E1; rewrite !len_cons in E1; pose proof (len_nonneg vs); lia).
      assert (strict = false) as -> by (destruct Hst as [|Hst]; [assumption|rewrite E1 in Hst; exfalso; apply Hst; reflexivity]).
      rewrite (lex_code_1 v0 m Ev) in *. rewrite E1. change (64 / 1) with 64. change (64 =? 64) with true. cbn [obind].
      change (64 * (1 - 1)) with 0.
      pose proof (Hl v0) as Hl0. rewrite E1 in Hl0. change (lex_lim 1) with two63 in Hl0.
      pose proof (zexp_nonneg vo m v0 Hmk) as Z0.
      rewrite Ev. cbn [unpack_lex_loop]. unfold field. rewrite shr_ok by lia. cbn [obind]. change (2 ^ 0) with 1. rewrite Z.div_1_r.
      assert (EL : Z.land (zexp m v0) (two64 - 1) = zexp m v0).
      { change (two64 - 1) with (Z.ones 64). rewrite Z.land_ones by lia. apply Z.mod_small. pose proof two63_lt. change (2 ^ 64) with two64. lia. }
      rewrite EL. destruct (Z.eqb_spec (zexp m v0) 0); [contradiction|]. cbn [negb].
      unfold shl64. change (0 <=? 64) with true. change (64 <? 64) with false. cbn [andb obind].
      rewrite to_i64_small by lia. f_equal. unfold mono_push.
      transitivity (Mono (md mono1 ++ [(v0, zexp m v0)]) (mg mono1 + deg_sum [(v0, zexp m v0)])); [cbn; f_equal; ring|]. apply Fin.
      pose proof (spread_zexp m Hmk Hi) as Sp. rewrite Ev in Sp. unfold spread in Sp. cbn [flat_map] in Sp.
      destruct (Z.eqb_spec (zexp m v0) 0); [contradiction|]. exact Sp.
    + assert (Hlim : lex_lim n = 2 ^ (64 / n)) by (unfold lex_lim; destruct (Z.eqb_spec n 1); [contradiction|reflexivity]).
      destruct (div_bounds n ltac:(lia)) as [B1 B2]. set (l := 64 / n) in *.
      destruct (Z.eqb_spec l 64) as [?|_]; [lia|].
      destruct (mask_ok strict l (l * (n - 1))) as (md_ & Em & Hmd); [lia|nia|lia|destruct Hst; [left; assumption|right; lia]|].
      replace (l + l * (n - 1)) with (l * n) in Em by ring. rewrite Em. cbn [obind].
      assert (HB : 0 < 2 ^ l) by (apply Z.pow_pos_nonneg; lia).
      assert (Hf : forall v, In v vars -> 0 <= zexp m v < 2 ^ l).
      { intros v _. split; [apply zexp_nonneg with vo; exact Hmk|rewrite <- Hlim; apply Hl]. }
      pose proof (E_bound (2 ^ l) HB (zexp m) vars Hf) as Eb.
      rewrite (unpack_lex_loop_ok strict l n md_ (zexp m) ltac:(lia) (pow2_le_63 l ltac:(lia)) vars); [|lia|lia|exact Hmd| |exact Hf|].
      * rewrite push_all. f_equal. apply Fin. apply spread_zexp; assumption.
      * unfold lex_code. fold l. lia.
      * unfold lex_code. fold l. rewrite Z.sub_diag. change ((2 ^ l) ^ 0) with 1. rewrite Z.mul_1_r, Z.pow_mul_r by lia.
        apply Z.mod_small. exact Eb.
  - (* range *)
    intros m Hm. pose proof Hm as (Hmk & Hi & Hl).
    destruct (Z.eq_dec n 1) as [E1|Nn].
    + destruct vars as [|v0 [|v1 vs]] eqn:Ev; [discriminate| |rewrite !len_cons in E1; pose proof (len_nonneg vs); lia].
      rewrite <- Ev in *. rewrite (lex_code_1 v0 m Ev). specialize (Hl v0). rewrite E1 in Hl. change (lex_lim 1) with two63 in Hl.
      pose proof (zexp_nonneg vo m v0 Hmk). pose proof two63_lt. lia.
    + assert (Hlim : lex_lim n = 2 ^ (64 / n)) by (unfold lex_lim; destruct (Z.eqb_spec n 1); [contradiction|reflexivity]).
      destruct (Z.eq_dec n 0) as [N0|N0].
      { unfold lex_code. destruct vars; [cbn; split; [lia|reflexivity]|]. rewrite len_cons in N0. pose proof (len_nonneg l). lia. }
      pose proof (len_nonneg vars). destruct (div_bounds n ltac:(lia)) as [B1 B2].
      assert (HB : 0 < 2 ^ (64 / n)) by (apply Z.pow_pos_nonneg; lia).
      pose proof (E_bound (2 ^ (64 / n)) HB (zexp m) vars) as Eb. rewrite <- Z.pow_mul_r in Eb by lia.
      assert (2 ^ (64 / n * n) <= two64) by (apply Z.pow_le_mono_r; lia).
      unfold lex_code. 
      assert (0 <= E (2 ^ (64 / n)) (zexp m) vars 0 < 2 ^ (64 / n * n)); [|lia].
      apply Eb. intros v _. split; [apply zexp_nonneg with vo; exact Hmk|rewrite <- Hlim; apply Hl].
  - intros a b _ _. apply (E_mul (2 ^ (64 / n)) a b 0 0).
  - intros a b Ha Hb Hg. apply lex_code_gt; assumption.
Qed.

(** ** grlex *)
Definition grlex_lim (k : Z) : Z := if k =? 1 then two63 else 2 ^ (64 / (k + 1)).
Definition grlex_fits (m : mono) : Prop :=
  mok vo m /\ incl (map fst (md m)) vars /\ mg m < grlex_lim n.
Definition grlex_code (m : mono) : Z :=
  if 1 <? n then E (2 ^ (64 / (n + 1))) (zexp m) vars (mg m) else mg m.

Lemma zexp_le_mg m v : mok vo m -> zexp m v <= mg m.
Proof.
  intros (Hd & Hp & ->). unfold zexp. revert Hp. clear. intros Hp. induction (md m) as [|[a c] l IH]; [cbn; lia|].
  apply Forall_cons_iff in Hp as [P1 P2]. specialize (IH P2). pose proof (exp_pos_nonneg l v P2).
  cbn [csum deg_sum fold_right snd] in *. fold (deg_sum l) in *. change (cadd Zc) with Z.add. destruct (N.eqb v a); lia.
Qed.
Lemma mg_nonneg m : mok vo m -> 0 <= mg m.
Proof. intros H. pose proof (zexp_le_mg m 0%N H). pose proof (zexp_nonneg vo m 0%N H). lia. Qed.

Lemma vars_small m : mok vo m -> incl (map fst (md m)) vars -> n <= 1 -> m = mono1 \/ exists v0, vars = [v0] /\ md m = [(v0, mg m)].
Proof.
  intros Hm Hi Hn. destruct vars as [|v0 [|v1 vs]] eqn:Ev.
  - left. apply md_nil_mono1; [exact Hm|]. destruct (md m) as [|t d]; [reflexivity|]. exfalso. apply (Hi (fst t)). left. reflexivity.
  - pose proof (spread_ok vo Hvo [v0] ltac:(constructor; constructor) (md m) (conj (mok_dok vo m Hm) Hi)) as Sp.
    unfold spread in Sp. cbn [flat_map] in Sp. rewrite app_nil_r in Sp.
    destruct (negb _) in Sp.
    + right. exists v0. split; [reflexivity|]. destruct Hm as (_ & _ & Hg). rewrite <- Sp at 1.
      f_equal. f_equal. rewrite Hg. transitivity (deg_sum [(v0, csum Zc (N.eqb v0) (md m))]); [cbn; ring|]. rewrite Sp. reflexivity.
    + left. apply md_nil_mono1; [exact Hm|auto].
  - rewrite !len_cons in Hn. pose proof (len_nonneg vs). lia.
Qed.

Lemma grlex_code_gt a b : n <= 63 -> grlex_fits a -> grlex_fits b -> grlex_gt vo a b = true -> grlex_code b < grlex_code a.
Proof.
  intros Hn (Ha & Ia & La) (Hb & Ib & Lb) Hg.
  assert (Hg' := Hg). apply (grlex_gt_spec vo Hvo a b Ha Hb) in Hg.
  destruct Ha as (Ha1 & Ha2 & Ha3). destruct Hb as (Hb1 & Hb2 & Hb3).
  assert (Ha : mok vo a) by (repeat split; assumption). assert (Hb : mok vo b) by (repeat split; assumption).
  rewrite <- Ha3, <- Hb3 in Hg. unfold grlex_code. destruct (Z.ltb_spec 1 n) as [H1|H1].
  - assert (Hlim : grlex_lim n = 2 ^ (64 / (n + 1))) by (unfold grlex_lim; destruct (Z.eqb_spec n 1); [lia|reflexivity]).
    destruct (div_bounds (n + 1) ltac:(lia)) as [B1 B2]. set (B := 2 ^ (64 / (n + 1))) in *.
    assert (HB : 0 < B) by (apply Z.pow_pos_nonneg; lia). rewrite Hlim in *.
    assert (Fa : forall v, zexp a v < B) by (intros v; pose proof (zexp_le_mg a v Ha); lia).
    assert (Fb : forall v, zexp b v < B) by (intros v; pose proof (zexp_le_mg b v Hb); lia).
    destruct Hg as [Hg|[Eg Hg]].
    + rewrite (E_shift B (zexp a)), (E_shift B (zexp b)).
      pose proof (E_bound B HB (zexp a) vars ltac:(intros v _; split; [apply zexp_nonneg with vo; exact Ha|auto])).
      pose proof (E_bound B HB (zexp b) vars ltac:(intros v _; split; [apply zexp_nonneg with vo; exact Hb|auto])).
      assert ((mg b + 1) * B ^ n <= mg a * B ^ n) by (apply Z.mul_le_mono_nonneg_r; lia). lia.
    + rewrite Eg. apply E_lex_gt; assumption.
  - destruct Hg as [Hg|[Eg Hg]]; [lia|]. exfalso.
    destruct (vars_small a Ha Ia H1) as [->|(v0 & Ev & Ea)], (vars_small b Hb Ib H1) as [->|(v1 & Ev1 & Eb)];
      destruct Hg as (v & Hv & _); cbn in *; try lia.
    + unfold zexp in Hv. rewrite Eb in Hv. cbn in Hv, Eg. rewrite <- Eg in Hv. destruct (N.eqb v v1); cbn in Hv; lia.
    + unfold zexp in Hv. rewrite Ea in Hv. cbn in Hv, Eg. rewrite Eg in Hv. destruct (N.eqb v v0); cbn in Hv; lia.
    + rewrite Ev in Ev1. injection Ev1 as <-. unfold zexp in Hv. rewrite Ea, Eb, Eg in Hv. lia.
Qed.

Theorem grlex_packing : n <= 63 -> (n = 1 \/ strict = false \/ (n + 1) * (64 / (n + 1)) <> 64) ->
  packing vo (grlex_gt vo) (grlex_layout strict vo) vars grlex_fits grlex_code.
Proof.
  intros Hn Hst. pose proof (len_nonneg vars) as N0.
  assert (Lpos : 0 < grlex_lim n).
  { unfold grlex_lim. destruct (n =? 1); [reflexivity|]. apply Z.pow_pos_nonneg; [lia|]. apply Z.div_pos; lia. }
  assert (One : grlex_fits mono1) by (split; [apply mok_1|split; [intros ? []|exact Lpos]]).
  assert (Code1 : grlex_code mono1 = 0) by (unfold grlex_code; destruct (1 <? n); [apply E_mono1|reflexivity]).
  assert (Pos : forall m, grlex_fits m -> m <> mono1 -> 0 < grlex_code m).
  { intros m Hm Hne. rewrite <- Code1. apply grlex_code_gt; try assumption.
    apply (grlex_1_least vo); [apply Hm|exact Hne]. }
  split.
  - intros m Hm. apply Hm.
  - intros m Hm. apply Hm.
  - intros m (Hm & Hi & Hl). cbn [grlex_layout lay_pack]. unfold pack_grlex.
    destruct (md m) as [|t d] eqn:Ed.
    { rewrite (md_nil_mono1 m Hm Ed), Code1. reflexivity. }
    destruct vars as [|v0 vs] eqn:Ev; [exfalso; apply (Hi (fst t)); left; reflexivity|]. rewrite <- Ev in *. rewrite <- Ed in *.
    change (Z.of_nat (length vars)) with n. unfold grlex_code. pose proof (mg_nonneg m Hm) as G0.
    assert (Hw : wrap64 (mg m) = mg m).
    { apply wrap64_small. split; [exact G0|]. apply Z.lt_le_trans with (grlex_lim n); [exact Hl|]. unfold grlex_lim.
      destruct (n =? 1); [pose proof two63_lt; lia|]. apply Z.pow_le_mono_r; [lia|]. apply Z.div_le_upper_bound; lia. }
    rewrite Hw. destruct (Z.ltb_spec 1 n) as [H1|H1]; [|reflexivity].
    assert (Hlim : grlex_lim n = 2 ^ (64 / (n + 1))) by (unfold grlex_lim; destruct (Z.eqb_spec n 1); [lia|reflexivity]).
    rewrite Hlim in *. destruct (div_bounds (n + 1) ltac:(lia)) as [B1 B2].
    apply (pack_loop_ok vo Hvo strict (64 / (n + 1)) vars); [lia|exact Hvs|split; [apply mok_dok, Hm|exact Hi]| |lia|].
    + intros v _. pose proof (zexp_le_mg m v Hm). unfold zexp in *. lia.
    + set (l := 64 / (n + 1)) in *. assert (0 < (2 ^ l) ^ n) by (apply Z.pow_pos_nonneg; [apply Z.pow_pos_nonneg; lia|lia]).
      apply Z.le_trans with (2 ^ l * (2 ^ l) ^ n); [apply Z.mul_le_mono_nonneg_r; lia|].
      rewrite <- Z.pow_mul_r, <- Z.pow_add_r by nia. apply Z.pow_le_mono_r; lia.
  - intros m Hm. pose proof Hm as (Hmk & Hi & Hl). cbn [grlex_layout lay_unpack]. unfold unpack_grlex.
    destruct vars as [|v0 vs] eqn:Ev.
    { f_equal. symmetry. apply md_nil_mono1; [exact Hmk|]. destruct (md m) as [|t d]; [reflexivity|]. exfalso. apply (Hi (fst t)). left. reflexivity. }
    rewrite <- Ev in *.
    destruct (Z.eqb_spec (grlex_code m) 0) as [E0|Ne0].
    { f_equal. destruct (mono_eqb m mono1) eqn:Em; [apply mono_eqb_iff in Em; auto|].
      assert (m <> mono1) by (intros ->; rewrite (proj2 (mono_eqb_iff mono1 mono1) eq_refl) in Em; discriminate).
      specialize (Pos m Hm H). lia. }
    change (Z.of_nat (length vars)) with n. pose proof (mg_nonneg m Hmk) as G0.
    assert (Fin : Mono (md m) (mg m) = m) by (destruct m; reflexivity).
    unfold grlex_code in *. destruct (Z.ltb_spec 1 n) as [H1|H1].
    + assert (Hlim : grlex_lim n = 2 ^ (64 / (n + 1))) by (unfold grlex_lim; destruct (Z.eqb_spec n 1); [lia|reflexivity]).
      rewrite Hlim in *. destruct (div_bounds (n + 1) ltac:(lia)) as [B1 B2]. set (l := 64 / (n + 1)) in *.
      destruct (mask_ok strict l (l * n)) as (md_ & Em & Hmd); [lia|nia|lia|destruct Hst as [?|[?|?]]; [lia|left; assumption|right; lia]|].
      replace (l + l * n) with (l * (n + 1)) in Em by ring. rewrite Em. cbn [obind].
      assert (HB : 0 < 2 ^ l) by (apply Z.pow_pos_nonneg; lia).
      assert (Hf : forall v, In v vars -> 0 <= zexp m v < 2 ^ l).
      { intros v _. split; [apply zexp_nonneg with vo; exact Hmk|]. pose proof (zexp_le_mg m v Hmk). lia. }
      pose proof (E_bound (2 ^ l) HB (zexp m) vars Hf) as Eb.
      assert (PP : 0 < (2 ^ l) ^ n) by (apply Z.pow_pos_nonneg; lia).
      assert (CodeE : E (2 ^ l) (zexp m) vars (mg m) = mg m * (2 ^ l) ^ n + E (2 ^ l) (zexp m) vars 0) by apply E_shift.
      set (c := E (2 ^ l) (zexp m) vars (mg m)) in *.
      assert (CR : 0 <= c < 2 ^ (l * (n + 1))).
      { rewrite Z.mul_add_distr_l, Z.mul_1_r, Z.pow_add_r, Z.pow_mul_r by nia.
        assert ((mg m + 1) * (2 ^ l) ^ n <= 2 ^ l * (2 ^ l) ^ n) by (apply Z.mul_le_mono_nonneg_r; lia).
        assert (0 <= mg m * (2 ^ l) ^ n) by (apply Z.mul_nonneg_nonneg; lia). lia. }
      rewrite (field_ok_ strict c md_ l (l * n)) by (assumption || nia || lia). cbn [obind].
      replace (l + l * n) with (l * (n + 1)) by ring. rewrite Z.mod_small by exact CR.
      assert (T : c / 2 ^ (l * n) = mg m).
      { rewrite Z.pow_mul_r by lia. rewrite CodeE, Z.div_add_l, Z.div_small by lia. ring. }
      rewrite T.
      rewrite (unpack_grlex_loop_ok strict l n md_ (zexp m) ltac:(lia) (pow2_le_63 l ltac:(lia)) vars c (mg m)); [|lia|lia|lia|exact Hmd|lia|exact Hf|].
      * cbn [obind]. rewrite to_i64_small by (split; [lia|]; pose proof (pow2_le_63 l ltac:(lia)); lia). f_equal.
        rewrite spread_zexp by assumption. exact Fin.
      * rewrite Z.mod_small by exact CR. rewrite Z.sub_diag. change ((2 ^ l) ^ 0) with 1. rewrite Z.mul_1_r. exact CodeE.
    + destruct (vars_small m Hmk Hi H1) as [->|(v1 & Ev1 & Em)]; [contradiction|].
      rewrite Ev in Ev1. injection Ev1 as -> _. unfold mono_push. cbn [md mg mono1 app snd].
      assert (n = 1) by (assert (1 <= n) by (apply n_pos_vars; rewrite Ev; discriminate); lia).
      rewrite H in Hl. change (grlex_lim 1) with two63 in Hl. rewrite to_i64_small by lia. f_equal. rewrite <- Em. exact Fin.
  - intros m Hm. pose proof Hm as (Hmk & Hi & Hl). unfold grlex_code. pose proof (mg_nonneg m Hmk) as G0.
    destruct (Z.ltb_spec 1 n) as [H1|H1].
    + assert (Hlim : grlex_lim n = 2 ^ (64 / (n + 1))) by (unfold grlex_lim; destruct (Z.eqb_spec n 1); [lia|reflexivity]).
      rewrite Hlim in *. destruct (div_bounds (n + 1) ltac:(lia)) as [B1 B2]. set (l := 64 / (n + 1)) in *.
      assert (HB : 0 < 2 ^ l) by (apply Z.pow_pos_nonneg; lia).
      assert (Hf : forall v, In v vars -> 0 <= zexp m v < 2 ^ l).
      { intros v _. split; [apply zexp_nonneg with vo; exact Hmk|]. pose proof (zexp_le_mg m v Hmk). lia. }
      pose proof (E_bound (2 ^ l) HB (zexp m) vars Hf) as Eb. rewrite E_shift.
      assert (PP : 0 < (2 ^ l) ^ n) by (apply Z.pow_pos_nonneg; lia).
      assert (X : 2 ^ l * (2 ^ l) ^ n <= two64).
      { rewrite <- Z.pow_mul_r, <- Z.pow_add_r by nia. apply Z.pow_le_mono_r; lia. }
      assert ((mg m + 1) * (2 ^ l) ^ n <= 2 ^ l * (2 ^ l) ^ n) by (apply Z.mul_le_mono_nonneg_r; lia).
      assert (0 <= mg m * (2 ^ l) ^ n) by (apply Z.mul_nonneg_nonneg; lia). lia.
    + split; [exact G0|]. apply Z.lt_le_trans with (grlex_lim n); [exact Hl|]. unfold grlex_lim.
      destruct (n =? 1); [pose proof two63_lt; lia|]. apply Z.pow_le_mono_r; [lia|]. apply Z.div_le_upper_bound; lia.
  - intros a b _ _. unfold grlex_code. destruct (1 <? n); [apply E_mul|reflexivity].
  - intros a b Ha Hb Hg. apply grlex_code_gt; assumption.
Qed.
End L.
