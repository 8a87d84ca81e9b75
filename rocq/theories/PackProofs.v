(** * Packed monomials: the codes. *)
From Coq Require Import Sorting.Sorted.
From Verif Require Import Prelude Coef Spec OrderSpec PairVec PairVecProofs Mono MonoProofs MonoStruct Pack.
Local Open Scope Z_scope.

Section Enc.
Variable B : Z.
Definition E (f : var -> Z) (vs : list var) (a : Z) : Z := fold_left (fun a v => a * B + f v) vs a.
Definition len (vs : list var) : Z := Z.of_nat (length vs).
Context (HB : 0 < B).

Lemma len_cons v vs : len (v :: vs) = len vs + 1.
Proof. unfold len. cbn [length]. lia. Qed.
Lemma len_nonneg vs : 0 <= len vs.
Proof. unfold len. lia. Qed.
Lemma Bpow_S vs v : B ^ len (v :: vs) = B ^ len vs * B.
Proof. rewrite len_cons, Z.pow_add_r, Z.pow_1_r by (pose proof (len_nonneg vs); lia). ring. Qed.
Lemma Bpow_pos vs : 0 < B ^ len vs.
Proof. apply Z.pow_pos_nonneg; [exact HB|apply len_nonneg]. Qed.

Lemma E_shift f vs : forall a, E f vs a = a * B ^ len vs + E f vs 0.
Proof.
  induction vs as [|v vs IH]; intros a; [cbn; ring|].
  change (E f (v :: vs) a) with (E f vs (a * B + f v)). change (E f (v :: vs) 0) with (E f vs (0 * B + f v)).
  rewrite (IH (a * B + f v)), (IH (0 * B + f v)), Bpow_S. ring.
Qed.
Lemma E_bound f vs : (forall v, In v vs -> 0 <= f v < B) -> 0 <= E f vs 0 < B ^ len vs.
Proof.
  induction vs as [|v vs IH]; intros H; [cbn; lia|].
  change (E f (v :: vs) 0) with (E f vs (0 * B + f v)). rewrite E_shift, Bpow_S.
  specialize (IH ltac:(intros; apply H; right; assumption)). pose proof (H v (or_introl eq_refl)).
  pose proof (Bpow_pos vs). set (X := B ^ len vs) in *. replace (0 * B + f v) with (f v) by ring.
  split; [nia|].
  assert ((f v + 1) * X <= B * X) by (apply Z.mul_le_mono_nonneg_r; lia). lia.
Qed.
Lemma E_add f g h vs : (forall v, In v vs -> h v = f v + g v) -> forall a b, E h vs (a + b) = E f vs a + E g vs b.
Proof.
  induction vs as [|v vs IH]; intros H a b; [reflexivity|]. cbn [E fold_left].
  change (E h vs ((a + b) * B + h v) = E f vs (a * B + f v) + E g vs (b * B + g v)).
  rewrite <- IH by (intros; apply H; right; assumption). f_equal. rewrite (H v) by (left; reflexivity). ring.
Qed.
Lemma E_ext f g vs a : (forall v, In v vs -> f v = g v) -> E f vs a = E g vs a.
Proof.
  revert a. induction vs as [|v vs IH]; intros a H; [reflexivity|]. cbn [E fold_left].
  change (E f vs (a * B + f v) = E g vs (a * B + g v)). rewrite (H v) by (left; reflexivity).
  apply IH. intros; apply H; right; assumption.
Qed.
Lemma E_lt f g p v s a : (forall w, In w p -> f w = g w) -> f v < g v ->
  (forall w, In w s -> 0 <= f w < B) -> (forall w, In w s -> 0 <= g w < B) ->
  E f (p ++ v :: s) a < E g (p ++ v :: s) a.
Proof.
  intros Hp Hv Hf Hg. unfold E. rewrite !fold_left_app. change (E f (v :: s) (E f p a) < E g (v :: s) (E g p a)).
  rewrite (E_ext f g p a Hp). set (x := E g p a).
  change (E f s (x * B + f v) < E g s (x * B + g v)). rewrite (E_shift f), (E_shift g).
  pose proof (E_bound f s Hf). pose proof (E_bound g s Hg). pose proof (Bpow_pos s).
  set (X := B ^ len s) in *. assert ((x * B + f v + 1) * X <= (x * B + g v) * X) by (apply Z.mul_le_mono_nonneg_r; lia). lia.
Qed.
End Enc.

Section P.
Variable vo : vorder.
Context (Hvo : vorder_ok vo).
Definition vsorted (l : list var) : Prop := StronglySorted (fun a b => vo a b = true) l.

Lemma merge_vars_spec l : forall ms, vsorted l -> vsorted ms ->
  vsorted (merge_vars vo l ms) /\ forall v, In v (merge_vars vo l ms) <-> In v l \/ In v ms.
Proof.
  induction l as [|a l IHl]; intros ms Hl Hm.
  - split; [exact Hm|]. intros v. cbn. tauto.
  - induction ms as [|b ms IHm].
    + split; [exact Hl|]. intros v. cbn. tauto.
    + apply StronglySorted_inv in Hl as [Hl1 Hl2]. pose proof Hm as Hm0. apply StronglySorted_inv in Hm as [Hm1 Hm2].
      assert (Hl : vsorted (a :: l)) by (constructor; assumption).
      cbn [merge_vars]. change (merge_vars vo (a :: l)) with (merge_vars vo (a :: l)) in IHm.
      rewrite Forall_forall in Hl2, Hm2.
      destruct (vo a b) eqn:Eab.
      * destruct (IHl (b :: ms) Hl1 Hm0) as [S1 I1]. split.
        -- constructor; [exact S1|]. apply Forall_forall. intros x Hx. apply I1 in Hx as [Hx|[<-|Hx]]; auto.
           apply (vo_trans vo Hvo a b x Eab). auto.
        -- intros v. cbn [In]. rewrite I1. cbn [In]. tauto.
      * destruct (vo b a) eqn:Eba.
        -- destruct (IHm Hm1) as [S1 I1]. split.
           ++ constructor; [exact S1|]. apply Forall_forall. intros x Hx. apply I1 in Hx as [[<-|Hx]|Hx]; auto.
              apply (vo_trans vo Hvo b a x Eba). auto.
           ++ intros v. cbn [In]. rewrite I1. cbn [In]. tauto.
        -- destruct (vo_total vo Hvo a b) as [<-|[?|?]]; try congruence.
           destruct (IHl ms Hl1 Hm1) as [S1 I1]. split.
           ++ constructor; [exact S1|]. apply Forall_forall. intros x Hx. apply I1 in Hx as [Hx|Hx]; auto.
           ++ intros v. cbn [In]. rewrite I1. tauto.
Qed.

Lemma mok_vsorted m : mok vo m -> vsorted (map fst (md m)).
Proof. intros (H & _). exact H. Qed.
Lemma add_vars_spec ms : forall l, vsorted l -> Forall (mok vo) ms ->
  vsorted (add_vars vo l ms) /\
  (forall v, In v (add_vars vo l ms) <-> In v l \/ exists m, In m ms /\ In v (map fst (md m))).
Proof.
  induction ms as [|m ms IH]; intros l Hl Hm.
  - split; [exact Hl|]. intros v. cbn. split; [tauto|]. intros [H|(m & [] & _)]; exact H.
  - apply Forall_cons_iff in Hm as [H1 H2]. cbn [add_vars fold_left].
    destruct (merge_vars_spec l (map fst (md m)) Hl (mok_vsorted m H1)) as [S1 I1].
    destruct (IH _ S1 H2) as [S2 I2]. split; [exact S2|]. intros v. unfold add_vars in I2. rewrite I2, I1. split.
    + intros [[H|H]|(x & H & H')]; [auto|right; exists m; split; [left; reflexivity|exact H]|right; exists x; split; [right; exact H|exact H']].
    + intros [H|(x & [<-|H] & H')]; [auto|auto|right; exists x; auto].
Qed.
Lemma pair_vec_vars_spec m1 m2 : Forall (mok vo) m1 -> Forall (mok vo) m2 ->
  vsorted (pair_vec_vars vo m1 m2) /\
  (forall m, In m m1 \/ In m m2 -> incl (map fst (md m)) (pair_vec_vars vo m1 m2)).
Proof.
  intros H1 H2. destruct (add_vars_spec m1 [] ltac:(constructor) H1) as [S1 I1].
  destruct (add_vars_spec m2 _ S1 H2) as [S2 I2]. split; [exact S2|].
  intros m Hm v Hv. unfold pair_vec_vars. apply I2. rewrite I1. destruct Hm; [left; right; exists m; auto|right; exists m; auto].
Qed.

(** exponents of a sorted list *)
Notation ex d v := (csum Zc (N.eqb v) d).

Definition fits_vars (d : list (var * Z)) (vs : list var) : Prop := dok vo d /\ incl (map fst d) vs.
Lemma fits_step v w e d vs : vsorted (v :: vs) -> fits_vars ((w, e) :: d) (v :: vs) ->
  if N.eqb v w then ex ((w, e) :: d) v = e /\ 0 < e /\ fits_vars d vs /\ (forall x, In x vs -> ex ((w, e) :: d) x = ex d x)
  else ex ((w, e) :: d) v = 0 /\ fits_vars ((w, e) :: d) vs.
Proof.
  intros Hs [Hd Hi]. apply StronglySorted_inv in Hs as [Hs1 Hs2]. rewrite Forall_forall in Hs2.
  pose proof Hd as Hd0. apply (dok_cons vo) in Hd as (He & Hlt & Hd). cbn [fst snd] in *.
  destruct (N.eqb_spec v w) as [<-|n].
  - split; [|split; [exact He|]].
    + cbn [csum]. rewrite N.eqb_refl. cbn [cadd Zc]. rewrite (ex_before vo Hvo v d Hlt). ring.
    + split; [split; [exact Hd|]|].
      * intros x Hx. assert (In x (v :: vs)) as [<-|] by (apply Hi; right; exact Hx); [|assumption].
        exfalso. apply in_map_iff in Hx as (u & Eu & Hu). rewrite Forall_forall in Hlt. specialize (Hlt u Hu). rewrite Eu in Hlt.
        rewrite (vo_irrefl vo Hvo) in Hlt. discriminate.
      * intros x Hx. cbn [csum]. destruct (N.eqb_spec x v) as [->|]; [|reflexivity].
        exfalso. specialize (Hs2 v Hx). rewrite (vo_irrefl vo Hvo) in Hs2. discriminate.
  - assert (Hw : In w vs) by (destruct (Hi w (or_introl eq_refl)); [congruence|assumption]).
    assert (Hv : Forall (fun u => vo v (fst u) = true) ((w, e) :: d)).
    { constructor; [apply Hs2, Hw|]. eapply Forall_impl; [|exact Hlt]. intros u Hu. apply (vo_trans vo Hvo v w); [apply Hs2, Hw|exact Hu]. }
    split; [apply (ex_before vo Hvo v _ Hv)|]. split; [exact Hd0|].
    intros x Hx. assert (In x (v :: vs)) as [<-|] by (apply Hi, Hx); [|assumption].
    exfalso. apply in_map_iff in Hx as (u & Eu & Hu). rewrite Forall_forall in Hv. specialize (Hv u Hu). rewrite Eu in Hv.
    rewrite (vo_irrefl vo Hvo) in Hv. discriminate.
Qed.
Lemma fits_nil d : fits_vars d [] -> d = [].
Proof. intros [_ H]. destruct d as [|t d]; [reflexivity|]. exfalso. apply (H (fst t)). left. reflexivity. Qed.

Lemma shl_ok strict x l : 0 <= l < 64 -> 0 <= x -> x * 2 ^ l < two64 -> shl64 strict x l = Ok (x * 2 ^ l).
Proof.
  intros Hl Hx Hb. unfold shl64. destruct (Z.leb_spec 0 l); [|lia]. destruct (Z.ltb_spec l 64); [|lia]. cbn [andb].
  unfold wrap64. rewrite Z.mod_small; [reflexivity|]. split; [|exact Hb]. apply Z.mul_nonneg_nonneg; [exact Hx|apply Z.pow_nonneg; lia].
Qed.
Lemma wrap64_small x : 0 <= x < two64 -> wrap64 x = x.
Proof. intros H. unfold wrap64. apply Z.mod_small, H. Qed.

(** the packing loop *)
Lemma pack_loop_ok strict l vs : 0 <= l < 64 -> vsorted vs -> forall d mc, fits_vars d vs ->
  (forall v, In v vs -> ex d v < 2 ^ l) -> 0 <= mc -> (mc + 1) * (2 ^ l) ^ len vs <= two64 ->
  pack_loop strict l vs d mc = Ok (E (2 ^ l) (fun v => ex d v) vs mc).
Proof.
  intros Hl. assert (HB : 0 < 2 ^ l) by (apply Z.pow_pos_nonneg; lia).
  induction vs as [|v vs IH]; intros Hs d mc Hd Hb Hmc Hfit; [reflexivity|].
  rewrite (Bpow_S (2 ^ l)) in Hfit. pose proof (Bpow_pos (2 ^ l) HB vs) as HP.
  set (B := 2 ^ l) in *. set (X := B ^ len vs) in *.
  assert (H1 : (mc * B + B) * X <= two64) by (replace ((mc * B + B) * X) with ((mc + 1) * (X * B)) by ring; exact Hfit).
  assert (H2 : mc * B + B <= two64).
  { apply Z.le_trans with ((mc * B + B) * X); [|exact H1]. assert (0 <= mc * B) by (apply Z.mul_nonneg_nonneg; lia).
    rewrite <- (Z.mul_1_r (mc * B + B)) at 1. apply Z.mul_le_mono_nonneg_l; lia. }
  assert (Hmb : 0 <= mc * B) by (apply Z.mul_nonneg_nonneg; lia).
  pose proof Hs as Hs'. apply StronglySorted_inv in Hs' as [Hs1 _].
  cbn [pack_loop]. rewrite shl_ok by (fold B; lia). cbn [obind]. fold B.
  change (E B (fun v => ex d v) (v :: vs) mc) with (E B (fun v => ex d v) vs (mc * B + ex d v)).
  destruct d as [|[w e] d].
  - rewrite IH; [|exact Hs1|split; [apply Hd|intros ? []]|intros; cbn; lia|lia|].
    + cbn [csum]. rewrite Z.add_0_r. reflexivity.
    + apply Z.le_trans with ((mc * B + B) * X); [|exact H1]. apply Z.mul_le_mono_nonneg_r; lia.
  - pose proof (fits_step v w e d vs Hs Hd) as F. pose proof (Hb v (or_introl eq_refl)) as Hv.
    destruct (N.eqb v w) eqn:Evw.
    + destruct F as (F1 & F2 & F3 & F4). rewrite F1 in *.
      assert (Hw : wrap64 (mc * B + e) = mc * B + e) by (apply wrap64_small; lia). rewrite Hw.
      rewrite IH; [|exact Hs1|exact F3|intros x Hx; rewrite <- F4 by exact Hx; apply Hb; right; exact Hx|lia|].
      * f_equal. apply E_ext. intros x Hx. symmetry. apply F4, Hx.
      * apply Z.le_trans with ((mc * B + B) * X); [|exact H1]. apply Z.mul_le_mono_nonneg_r; lia.
    + destruct F as (F1 & F2). rewrite F1, Z.add_0_r.
      apply IH; [exact Hs1|exact F2|intros x Hx; apply Hb; right; exact Hx|lia|].
      apply Z.le_trans with ((mc * B + B) * X); [|exact H1]. apply Z.mul_le_mono_nonneg_r; lia.
Qed.

(** ** Unpacking *)
Definition spread (f : var -> Z) (vs : list var) : list (var * Z) :=
  flat_map (fun v => if negb (f v =? 0) then [(v, f v)] else []) vs.
Lemma spread_ext f g vs : (forall v, In v vs -> f v = g v) -> spread f vs = spread g vs.
Proof.
  intros H. unfold spread. induction vs as [|v vs IH]; [reflexivity|]. cbn [flat_map].
  rewrite (H v) by (left; reflexivity). rewrite IH; [reflexivity|]. intros; apply H; right; assumption.
Qed.
Lemma spread_ok vs : vsorted vs -> forall d, fits_vars d vs -> spread (fun v => ex d v) vs = d.
Proof.
  induction vs as [|v vs IH]; intros Hs d Hd; [symmetry; apply fits_nil, Hd|].
  pose proof Hs as Hs'. apply StronglySorted_inv in Hs' as [Hs1 _]. unfold spread. cbn [flat_map].
  change (flat_map (fun v0 => if negb (ex d v0 =? 0) then [(v0, ex d v0)] else []) vs) with (spread (fun x => ex d x) vs).
  destruct d as [|[w e] d].
  - change (ex [] v) with 0. change (0 =? 0) with true. cbn [negb app]. apply (IH Hs1 []). split; [split; constructor|intros ? []].
  - pose proof (fits_step v w e d vs Hs Hd) as F. destruct (N.eqb_spec v w) as [<-|n].
    + destruct F as (F1 & F2 & F3 & F4). rewrite F1. destruct (Z.eqb_spec e 0); [lia|]. cbn [negb app]. f_equal.
      rewrite (spread_ext _ (fun x => ex d x)) by exact F4. apply IH; assumption.
    + destruct F as (F1 & F2). rewrite F1. change (0 =? 0) with true. cbn [negb app]. apply (IH Hs1 ((w, e) :: d) F2).
Qed.

Lemma shr_ok strict x l : 0 <= l < 64 -> shr64 strict x l = Ok (x / 2 ^ l).
Proof.
  intros Hl. unfold shr64. destruct (Z.leb_spec 0 l); [|lia]. destruct (Z.ltb_spec l 64); [|lia]. reflexivity.
Qed.
Lemma pow2_split a b : 0 <= a -> 0 <= b -> 2 ^ (a + b) = 2 ^ a * 2 ^ b.
Proof. intros. apply Z.pow_add_r; assumption. Qed.

(** Field extraction: any mask whose bits from [ll] up are exactly the [l] ones. *)
Lemma field_ok_ strict mc mod_ l ll : 0 <= l -> 0 <= ll < 64 -> 0 <= mc -> mod_ / 2 ^ ll = 2 ^ l - 1 ->
  field strict mc mod_ ll = Ok ((mc mod 2 ^ (l + ll)) / 2 ^ ll).
Proof.
  intros Hl Hll Hmc Hm. unfold field. rewrite shr_ok by exact Hll. f_equal.
  assert (P1 : 0 < 2 ^ ll) by (apply Z.pow_pos_nonneg; lia). assert (P2 : 0 < 2 ^ l) by (apply Z.pow_pos_nonneg; lia).
  rewrite <- Z.shiftr_div_pow2, Z.shiftr_land, !Z.shiftr_div_pow2, Hm by lia.
  rewrite Z.sub_1_r, <- Z.ones_equiv.
  rewrite Z.land_ones by lia. rewrite Z.add_comm, pow2_split by lia.
  rewrite Z.rem_mul_r by lia. rewrite (Z.mul_comm (2 ^ ll)), Z.div_add by lia.
  rewrite (Z.div_small (mc mod 2 ^ ll)) by (apply Z.mod_pos_bound; lia). ring.
Qed.

Lemma mask_ok strict l ll : 0 < l -> 0 < ll -> l + ll <= 64 -> (strict = false \/ l + ll <> 64) ->
  exists mod_, mask strict (l + ll) ll = Ok mod_ /\ mod_ / 2 ^ ll = 2 ^ l - 1.
Proof.
  intros Hl Hll Hs Hst. unfold mask.
  assert (P1 : 0 < 2 ^ ll) by (apply Z.pow_pos_nonneg; lia). assert (P2 : 0 < 2 ^ l) by (apply Z.pow_pos_nonneg; lia).
  assert (Hy : shl64 strict 1 ll = Ok (2 ^ ll)).
  { rewrite shl_ok; [f_equal; ring|lia|lia|]. rewrite Z.mul_1_l. unfold two64. apply Z.pow_lt_mono_r; lia. }
  rewrite Hy. destruct (Z.eq_dec (l + ll) 64) as [E64|N64].
  - assert (strict = false) as -> by (destruct Hst; [assumption|contradiction]). rewrite E64.
    change (shl64 false 1 64) with (Ok 1). cbn [obind]. eexists. split; [reflexivity|].
    unfold wrap64. assert (T : two64 = 2 ^ l * 2 ^ ll) by (rewrite <- pow2_split, E64 by lia; reflexivity).
    replace (1 - 2 ^ ll) with ((two64 - 2 ^ ll + 1) + (-1) * two64) by ring.
    rewrite Z.mod_add by discriminate. 
    assert (2 <= 2 ^ ll). { replace ll with (1 + (ll - 1)) by ring. rewrite pow2_split by lia. 
      assert (0 < 2 ^ (ll - 1)) by (apply Z.pow_pos_nonneg; lia). change (2 ^ 1) with 2. lia. }
    assert (2 ^ ll <= two64) by (rewrite T; nia).
    rewrite Z.mod_small by lia. rewrite T. replace (2 ^ l * 2 ^ ll - 2 ^ ll + 1) with (1 + (2 ^ l - 1) * 2 ^ ll) by ring.
    rewrite Z.div_add by lia. rewrite Z.div_small by lia. ring.
  - assert (Hx : shl64 strict 1 (l + ll) = Ok (2 ^ (l + ll))).
    { rewrite shl_ok; [f_equal; ring|lia|lia|]. rewrite Z.mul_1_l. unfold two64. apply Z.pow_lt_mono_r; lia. }
    rewrite Hx. cbn [obind]. eexists. split; [reflexivity|].
    assert (L1 : 2 ^ (l + ll) < two64) by (unfold two64; apply Z.pow_lt_mono_r; lia).
    rewrite pow2_split in * by lia. rewrite wrap64_small by nia.
    replace (2 ^ l * 2 ^ ll - 2 ^ ll) with ((2 ^ l - 1) * 2 ^ ll) by ring. apply Z.div_mul. lia.
Qed.

Lemma shl_any strict x l : 0 <= l < 64 -> shl64 strict x l = Ok (wrap64 (x * 2 ^ l)).
Proof.
  intros Hl. unfold shl64. destruct (Z.leb_spec 0 l); [|lia]. destruct (Z.ltb_spec l 64); [|lia]. reflexivity.
Qed.
Lemma wrap64_mod x w : 0 <= w <= 64 -> wrap64 x mod 2 ^ w = x mod 2 ^ w.
Proof.
  intros Hw. unfold wrap64, two64. replace 64 with (w + (64 - w)) by ring. rewrite pow2_split by lia.
  assert (0 < 2 ^ w) by (apply Z.pow_pos_nonneg; lia). assert (0 < 2 ^ (64 - w)) by (apply Z.pow_pos_nonneg; lia).
  rewrite Z.rem_mul_r by lia. rewrite Z.mul_comm, Z.mod_add by lia. apply Z.mod_mod. lia.
Qed.
Lemma wrap64_range x : 0 <= wrap64 x < two64.
Proof. apply Z.mod_pos_bound. reflexivity. Qed.

Lemma to_i64_small x : 0 <= x < two63 -> to_i64 x = x.
Proof. intros H. unfold to_i64. destruct (Z.ltb_spec x two63); lia. Qed.

Section Unpack.
Variables (strict : bool) (l n : Z) (mod_ : Z) (f : var -> Z).
Context (Hl : 0 < l < 64).
Let B := 2 ^ l.
Context (Hf0 : B <= two63).
Lemma Bpos : 0 < B. Proof. apply Z.pow_pos_nonneg; lia. Qed.
Lemma Bp k : 0 <= k -> 2 ^ (l * k) = B ^ k.
Proof. intros. unfold B. apply Z.pow_mul_r; lia. Qed.

Lemma top_field x k t a : 0 <= k -> 0 <= t -> 0 <= a < B ^ k -> x = (t * B ^ k + a) -> x / B ^ k = t.
Proof.
  intros Hk Ht Ha ->. assert (0 < B ^ k) by (apply Z.pow_pos_nonneg; [apply Bpos|lia]).
  rewrite Z.div_add_l, Z.div_small by lia. ring.
Qed.

(** grlex: [n] variables, [n+1] fields *)
Lemma unpack_grlex_loop_ok vs : forall mc top, 0 <= n -> len vs <= n -> l * (n + 1) <= 64 ->
  mod_ / 2 ^ (l * n) = 2 ^ l - 1 ->
  0 <= mc -> (forall v, In v vs -> 0 <= f v < B) ->
  mc mod 2 ^ (l * (n + 1)) = (top * B ^ len vs + E B f vs 0) * B ^ (n - len vs) ->
  unpack_grlex_loop strict l (l * n) mod_ vs mc = Ok (spread f vs).
Proof.
  induction vs as [|v vs IH]; intros mc top Hn Hlen Hw Hmod Hmc Hf Hx; [reflexivity|].
  pose proof Bpos as HB. pose proof (len_nonneg vs) as L0. rewrite len_cons in *.
  cbn [unpack_grlex_loop]. rewrite shl_any by lia. cbn [obind]. fold B.
  set (mc' := wrap64 (mc * B)) in *.
  pose proof (wrap64_range (mc * B)) as Hmc'. fold mc' in Hmc'.
  pose proof (E_bound B HB f vs ltac:(intros; apply Hf; right; assumption)) as EB.
  pose proof (Hf v (or_introl eq_refl)) as Hv.
  assert (Hx' : mc' mod 2 ^ (l * (n + 1)) = (f v * B ^ len vs + E B f vs 0) * B ^ (n - len vs)).
  { unfold mc'. rewrite wrap64_mod by lia. rewrite <- Zmult_mod_idemp_l, Hx.
    change (E B f (v :: vs) 0) with (E B f vs (0 * B + f v)). rewrite (E_shift B f vs (0 * B + f v)), Z.mul_0_l, Z.add_0_l.
    replace (n - len vs) with ((n - (len vs + 1)) + 1) by ring.
    rewrite Bp by lia.
    set (y := f v * B ^ len vs + E B f vs 0).
    replace (n + 1) with ((len vs + 1) + (n - (len vs + 1)) + 1) by ring.
    rewrite (Z.pow_add_r B (len vs + 1 + (n - (len vs + 1))) 1), (Z.pow_add_r B (len vs + 1) (n - (len vs + 1))),
            (Z.pow_add_r B (n - (len vs + 1)) 1) by lia.
    rewrite Z.pow_1_r. set (q := B ^ (n - (len vs + 1))). set (p := B ^ (len vs + 1)).
    replace ((top * p + y) * q * B) with (y * (q * B) + top * (p * q * B)) by ring.
    assert (0 < p) by (apply Z.pow_pos_nonneg; lia). assert (0 < q) by (apply Z.pow_pos_nonneg; lia).
    rewrite Z.mod_add by (apply Z.neq_mul_0; split; [apply Z.neq_mul_0; lia|lia]).
    apply Z.mod_small. split.
    - apply Z.mul_nonneg_nonneg; [|nia]. unfold y. assert (0 <= f v * B ^ len vs) by (apply Z.mul_nonneg_nonneg; [lia|apply Z.pow_nonneg; lia]). lia.
    - replace (p * q * B) with (p * (q * B)) by ring. apply Z.mul_lt_mono_pos_r; [nia|].
      unfold p, y. rewrite Z.pow_add_r, Z.pow_1_r by lia.
      assert (0 < B ^ len vs) by (apply Z.pow_pos_nonneg; lia).
      assert ((f v + 1) * B ^ len vs <= B * B ^ len vs) by (apply Z.mul_le_mono_nonneg_r; lia). lia. }
  rewrite (field_ok_ strict mc' mod_ l (l * n)) by (assumption || nia || lia).
  cbn [obind]. replace (l + l * n) with (l * (n + 1)) by ring. rewrite Hx', Bp by lia.
  assert (Ht : (f v * B ^ len vs + E B f vs 0) * B ^ (n - len vs) / B ^ n = f v).
  { replace (B ^ n) with (B ^ len vs * B ^ (n - len vs)) by (rewrite <- Z.pow_add_r by lia; f_equal; ring).
    assert (0 < B ^ (n - len vs)) by (apply Z.pow_pos_nonneg; lia). assert (0 < B ^ len vs) by (apply Z.pow_pos_nonneg; lia).
    rewrite Z.div_mul_cancel_r by lia. apply (top_field _ (len vs) (f v) (E B f vs 0)); lia. }
  rewrite Ht. rewrite (IH mc' (f v)); [|lia|lia|lia|assumption|lia|intros; apply Hf; right; assumption|exact Hx'].
  cbn [obind]. unfold spread. cbn [flat_map]. rewrite to_i64_small by lia. destruct (negb (f v =? 0)); reflexivity.
Qed.

(** lex: [n] variables, [n] fields *)
Lemma unpack_lex_loop_ok vs : forall mc m, len vs <= n -> l * n <= 64 ->
  mod_ / 2 ^ (l * (n - 1)) = 2 ^ l - 1 ->
  0 <= mc -> (forall v, In v vs -> 0 <= f v < B) ->
  mc mod 2 ^ (l * n) = E B f vs 0 * B ^ (n - len vs) ->
  unpack_lex_loop strict l (l * (n - 1)) mod_ vs mc m = Ok (fold_left mono_push (spread f vs) m).
Proof.
  induction vs as [|v vs IH]; intros mc m Hlen Hw Hmod Hmc Hf Hx; [reflexivity|].
  pose proof Bpos as HB. pose proof (len_nonneg vs) as L0. rewrite len_cons in *.
  cbn [unpack_lex_loop].
  rewrite (field_ok_ strict mc mod_ l (l * (n - 1))) by (assumption || nia || lia). cbn [obind].
  replace (l + l * (n - 1)) with (l * n) by ring. rewrite Hx, Bp by lia.
  pose proof (E_bound B HB f vs ltac:(intros; apply Hf; right; assumption)) as EB.
  pose proof (Hf v (or_introl eq_refl)) as Hv.
  assert (EE : E B f (v :: vs) 0 = f v * B ^ len vs + E B f vs 0).
  { change (E B f (v :: vs) 0) with (E B f vs (0 * B + f v)). rewrite E_shift. ring. }
  rewrite EE in *. replace (n - (len vs + 1)) with (n - 1 - len vs) in * by ring.
  assert (P1 : 0 < B ^ (n - 1 - len vs)) by (apply Z.pow_pos_nonneg; lia). assert (P2 : 0 < B ^ len vs) by (apply Z.pow_pos_nonneg; lia).
  assert (Ht : (f v * B ^ len vs + E B f vs 0) * B ^ (n - 1 - len vs) / B ^ (n - 1) = f v).
  { replace (B ^ (n - 1)) with (B ^ len vs * B ^ (n - 1 - len vs)) by (rewrite <- Z.pow_add_r by lia; f_equal; ring).
    rewrite Z.div_mul_cancel_r by lia. apply (top_field _ (len vs) (f v) (E B f vs 0)); lia. }
  rewrite Ht, shl_any by lia. cbn [obind]. fold B. rewrite to_i64_small by lia.
  rewrite IH; [|lia|lia|assumption|apply wrap64_range|intros; apply Hf; right; assumption|].
  - unfold spread. cbn [flat_map]. rewrite fold_left_app. destruct (negb (f v =? 0)); reflexivity.
  - rewrite wrap64_mod by (split; [apply Z.mul_nonneg_nonneg; lia|lia]). rewrite <- Zmult_mod_idemp_l, Hx.
    rewrite Bp by lia. replace (B ^ n) with (B * B ^ len vs * B ^ (n - 1 - len vs)).
    2: { rewrite <- Z.mul_assoc, <- Z.pow_add_r by lia. replace (len vs + (n - 1 - len vs)) with (n - 1) by ring.
         rewrite <- (Z.pow_1_r B) at 1. rewrite <- Z.pow_add_r by lia. f_equal. ring. }
    replace (B ^ (n - len vs)) with (B ^ (n - 1 - len vs) * B).
    2: { rewrite <- (Z.pow_1_r B) at 2. rewrite <- Z.pow_add_r by lia. f_equal. lia. }
    set (q := B ^ (n - 1 - len vs)) in *. set (p := B ^ len vs) in *. set (e := E B f vs 0) in *.
    replace ((f v * p + e) * q * B) with (e * (q * B) + f v * (B * p * q)) by ring.
    rewrite Z.mod_add by (apply Z.neq_mul_0; split; [apply Z.neq_mul_0; lia|lia]). apply Z.mod_small.
    split; [apply Z.mul_nonneg_nonneg; [lia|nia]|]. replace (B * p * q) with (p * (q * B)) by ring. apply Z.mul_lt_mono_pos_r; [nia|lia].
Qed.
End Unpack.

Lemma push_all d : forall m, fold_left mono_push d m = Mono (md m ++ d) (mg m + deg_sum d).
Proof.
  induction d as [|[v e] d IH]; intros m; cbn [fold_left].
  - rewrite app_nil_r. cbn. destruct m; cbn. f_equal. ring.
  - rewrite IH. unfold mono_push. cbn [md mg snd deg_sum fold_right]. rewrite <- app_assoc. cbn [app]. f_equal.
    change (fold_right (fun t s => snd t + s) 0 d) with (deg_sum d). ring.
Qed.
End P.
