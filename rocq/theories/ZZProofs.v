(** * ZZ computes exactly and canonically. *)
From Verif Require Import Prelude ZZ NumSpec.
Local Open Scope Z_scope.

Ltac i64 := unfold fits64, to_u64, i128_ok, i64min, i64max, two63, two64 in *.

Lemma demote_ok x : zz_ok (demote x) /\ zval (demote x) = x.
Proof.
  unfold demote. destruct (fits64 x) eqn:E; i64; cbn; (split; [lia|reflexivity]).
Qed.
Lemma demote_is x y : x = y -> is_zz (Ok (demote x)) y.
Proof. intros ->. exists (demote y). split; [reflexivity|apply demote_ok]. Qed.
Lemma small_is x : - 2 ^ 63 <= x <= 2 ^ 63 - 1 -> is_zz (Ok (Small x)) x.
Proof. intros H. exists (Small x). cbn. auto. Qed.

Lemma zz_ok_unique a b : zz_ok a -> zz_ok b -> zval a = zval b -> a = b.
Proof. destruct a, b; cbn; intros; subst; try reflexivity; contradiction. Qed.

Lemma neg64_ok strict x : negsafe strict (Small x) -> - 2 ^ 63 <= x < 0 ->
  exists n, neg64 strict x = Ok n /\ to_u64 n = - x.
Proof.
  intros Hs Hx. unfold neg64. destruct (Z.eqb_spec x i64min) as [->|E].
  - destruct Hs as [->|Hs]; [|exfalso; apply Hs; reflexivity]. exists i64min. split; reflexivity.
  - exists (- x). split; [reflexivity|]. i64. rewrite Z.mod_small; lia.
Qed.
Lemma add_si_ok strict x v : negsafe strict (Small v) -> - 2 ^ 63 <= v <= 2 ^ 63 - 1 -> add_si strict x v = Ok (x + v).
Proof.
  intros Hs Hv. unfold add_si. destruct (Z.leb_spec 0 v).
  - f_equal. i64. rewrite Z.mod_small; lia.
  - destruct (neg64_ok strict v Hs) as (n & -> & E); [lia|]. cbn. rewrite E. f_equal; lia.
Qed.
Lemma sub_si_ok strict x v : negsafe strict (Small v) -> - 2 ^ 63 <= v <= 2 ^ 63 - 1 -> sub_si strict x v = Ok (x - v).
Proof.
  intros Hs Hv. unfold sub_si. destruct (Z.leb_spec 0 v).
  - f_equal. i64. rewrite Z.mod_small; lia.
  - destruct (neg64_ok strict v Hs) as (n & -> & E); [lia|]. cbn. rewrite E. f_equal; lia.
Qed.

Lemma zz_add_ok strict a b : negsafe strict a -> negsafe strict b -> zz_ok a -> zz_ok b ->
  is_zz (zz_add strict a b) (zval a + zval b).
Proof.
  intros Sa Sb Ha Hb. destruct a as [x|x], b as [y|y]; cbn [zz_add zval zz_ok] in *.
  - destruct (fits64 (x + y)) eqn:E; [apply small_is; i64; lia|].
    rewrite add_si_ok by assumption. apply demote_is. reflexivity.
  - rewrite add_si_ok by assumption. apply demote_is. lia.
  - rewrite add_si_ok by assumption. apply demote_is. lia.
  - apply demote_is. reflexivity.
Qed.
Lemma zz_sub_ok strict a b : negsafe strict b -> zz_ok a -> zz_ok b ->
  is_zz (zz_sub strict a b) (zval a - zval b).
Proof.
  intros Sb Ha Hb. destruct a as [x|x], b as [y|y]; cbn [zz_sub zval zz_ok] in *.
  - destruct (fits64 (x - y)) eqn:E; [apply small_is; i64; lia|].
    rewrite sub_si_ok by assumption. apply demote_is. reflexivity.
  - apply demote_is. lia.
  - rewrite sub_si_ok by assumption. apply demote_is. lia.
  - apply demote_is. reflexivity.
Qed.
Lemma i128_prod x y : - 2 ^ 63 <= x <= 2 ^ 63 - 1 -> - 2 ^ 63 <= y <= 2 ^ 63 - 1 ->
  - 2 ^ 126 <= x * y <= 2 ^ 126.
Proof. intros. split; nia. Qed.
Lemma i128_ok_eq x : - 2 ^ 127 <= x < 2 ^ 127 -> i128 x = Ok x.
Proof. intros H. unfold i128, i128_ok. replace ((- 2 ^ 127 <=? x) && (x <? 2 ^ 127)) with true by lia. reflexivity. Qed.
Lemma zz_mul_ok a b : zz_ok a -> zz_ok b -> is_zz (zz_mul a b) (zval a * zval b).
Proof.
  intros Ha Hb. destruct a as [x|x], b as [y|y]; cbn [zz_mul zval zz_ok] in *.
  - pose proof (i128_prod x y Ha Hb). rewrite i128_ok_eq by lia. cbn [obind].
    destruct (fits64 (x * y)) eqn:E; [apply small_is; i64; lia|apply demote_is; reflexivity].
  - apply demote_is. lia.
  - apply demote_is. reflexivity.
  - apply demote_is. reflexivity.
Qed.
Lemma zz_neg_ok a : zz_ok a -> zz_ok (zz_neg a) /\ zval (zz_neg a) = - zval a.
Proof.
  intros Ha. destruct a as [x|x]; cbn [zz_neg zval zz_ok] in *; [|apply demote_ok].
  destruct (Z.eqb_spec x i64min) as [->|E]; i64; cbn; split; lia.
Qed.
Lemma zz_abs_ok a : zz_ok a -> zz_ok (zz_abs a) /\ zval (zz_abs a) = Z.abs (zval a).
Proof.
  intros Ha. destruct a as [x|x]; cbn [zz_abs zval zz_ok] in *; [|apply demote_ok].
  destruct (Z.eqb_spec x i64min) as [->|E]; i64; cbn [zz_ok zval]; [split; lia|].
  destruct (Z.ltb_spec x 0); split; lia.
Qed.
Lemma zz_eqb_ok a b : zz_eqb a b = (zval a =? zval b).
Proof. destruct a, b; cbn; try reflexivity. apply Z.eqb_sym. Qed.
Lemma zz_ltb_ok a b : zz_ltb a b = (zval a <? zval b).
Proof.
  destruct a as [x|x], b as [y|y]; cbn; try reflexivity.
  unfold Z.ltb. rewrite (Z.compare_antisym x y). destruct (x ?= y); reflexivity.
Qed.
Lemma zz_is_zero_ok a : zz_is_zero a = (zval a =? 0).
Proof. destruct a as [x|x]; cbn; [reflexivity|]. destruct x; reflexivity. Qed.
Lemma zz_is_one_ok a : zz_is_one a = (zval a =? 1).
Proof. destruct a as [x|x]; reflexivity. Qed.
Lemma zz_is_odd_ok a : zz_is_odd a = Z.odd (zval a).
Proof.
  destruct a as [x|x]; cbn [zz_is_odd zval]; [|reflexivity].
  change 1 with (Z.ones 1). rewrite Z.land_ones by lia. change (2 ^ 1) with 2.
  rewrite Zmod_odd. destruct (Z.odd x); reflexivity.
Qed.
Lemma zz_sgn_ok a : zz_sgn a = Z.sgn (zval a).
Proof. destruct a as [x|x]; cbn [zz_sgn zval]; [|reflexivity]. destruct (Z.ltb_spec 0 x); [lia|]. destruct (Z.ltb_spec x 0); lia. Qed.

(** Division *)
Lemma quot_half x y : 2 <= Z.abs y -> 2 * Z.abs (Z.quot x y) <= Z.abs x.
Proof.
  intros H. assert (y <> 0) by lia. rewrite <- Z.quot_abs by assumption.
  pose proof (Z.mul_quot_le (Z.abs x) (Z.abs y) ltac:(lia) ltac:(lia)) as L.
  assert (0 <= Z.quot (Z.abs x) (Z.abs y)) as P by (apply Z.quot_pos; lia).
  eapply Z.le_trans; [|exact (proj2 L)]. apply Z.mul_le_mono_nonneg_r; assumption.
Qed.
Lemma quot_range x y : - 2 ^ 63 <= x <= 2 ^ 63 - 1 -> y <> 0 -> ~ (x = - 2 ^ 63 /\ y = -1) ->
  - 2 ^ 63 <= Z.quot x y <= 2 ^ 63 - 1.
Proof.
  intros Hx Hy Hn. pose proof (Z.quot_rem' x y) as E. pose proof (Z.rem_bound_abs x y Hy) as B.
  destruct (Z.eq_dec y 1) as [->|]; [rewrite Z.quot_1_r; lia|].
  destruct (Z.eq_dec y (-1)) as [->|]; [change (-1) with (- (1)); rewrite Z.quot_opp_r, Z.quot_1_r by lia; lia|].
  pose proof (quot_half x y ltac:(clear - Hy n n0; lia)) as Q. clear - Hx Q. lia.
Qed.
Lemma rem_range x y : - 2 ^ 63 <= y <= 2 ^ 63 - 1 -> y <> 0 -> - 2 ^ 63 <= Z.rem x y <= 2 ^ 63 - 1.
Proof. intros Hy Hn. pose proof (Z.rem_bound_abs x y Hn). lia. Qed.

Lemma big_nonzero x : zz_ok (Big x) -> x <> 0.
Proof. cbn. lia. Qed.
Lemma gdiv_ok f x y : y <> 0 -> gdiv f x y = Ok (f x y).
Proof. intros H. unfold gdiv. destruct (Z.eqb_spec y 0); [contradiction|reflexivity]. Qed.

Lemma zz_div_ok a b : zz_ok a -> zz_ok b ->
  if zval b =? 0 then zz_div a b = Throw else is_zz (zz_div a b) (Z.quot (zval a) (zval b)).
Proof.
  intros Ha Hb. destruct (Z.eqb_spec (zval b) 0) as [E|E].
  - destruct a as [x|x], b as [y|y]; cbn [zval zz_div] in *; subst; try reflexivity; exfalso; apply (big_nonzero 0 Hb); reflexivity.
  - destruct a as [x|x], b as [y|y]; cbn [zval zz_div zz_ok] in *.
    + destruct (Z.eqb_spec y 0); [contradiction|].
      destruct (Z.eqb_spec x i64min), (Z.eqb_spec y (-1)); cbn [andb];
        try (apply small_is; apply quot_range; i64; lia).
      subst. eexists. split; [reflexivity|]. i64. cbn. split; [lia|reflexivity].
    + rewrite gdiv_ok by assumption. apply demote_is. reflexivity.
    + rewrite gdiv_ok by assumption. apply demote_is. reflexivity.
    + rewrite gdiv_ok by assumption. apply demote_is. reflexivity.
Qed.
Lemma zz_mod_ok a b : zz_ok a -> zz_ok b ->
  if zval b =? 0 then zz_mod a b = Throw else is_zz (zz_mod a b) (Z.rem (zval a) (zval b)).
Proof.
  intros Ha Hb. destruct (Z.eqb_spec (zval b) 0) as [E|E].
  - destruct a as [x|x], b as [y|y]; cbn [zval zz_mod] in *; subst; try reflexivity; exfalso; apply (big_nonzero 0 Hb); reflexivity.
  - destruct a as [x|x], b as [y|y]; cbn [zval zz_mod zz_ok] in *.
    + destruct (Z.eqb_spec y 0); [contradiction|].
      destruct (Z.eqb_spec x i64min), (Z.eqb_spec y (-1)); cbn [andb];
        try (apply small_is; apply rem_range; i64; lia).
      subst. eexists. split; [reflexivity|]. i64. cbn. split; [lia|reflexivity].
    + rewrite gdiv_ok by assumption. apply demote_is. reflexivity.
    + rewrite gdiv_ok by assumption. apply demote_is. reflexivity.
    + rewrite gdiv_ok by assumption. apply demote_is. reflexivity.
Qed.

(** ** In-place operations *)
Lemma upd_same m d v : upd m d v d = v.
Proof. unfold upd. rewrite Nat.eqb_refl. reflexivity. Qed.
Lemma upd_other m d v e : e <> d -> upd m d v e = m e.
Proof. intros H. unfold upd. destruct (Nat.eqb_spec e d); [contradiction|reflexivity]. Qed.
Lemma raw_zval a : raw a = zval a. Proof. destruct a; reflexivity. Qed.
Lemma raw_ensure m d e : zval (ensure m d e) = zval (m e).
Proof. unfold ensure, upd. destruct (Nat.eqb_spec e d) as [->|]; [|reflexivity]. cbn. apply raw_zval. Qed.
Lemma stores_small m d x y : - 2 ^ 63 <= x <= 2 ^ 63 - 1 -> x = y -> stores (Ok (upd m d (Small x))) m d y.
Proof. intros H <-. eexists. split; [reflexivity|]. rewrite upd_same. cbn. repeat split; try lia. apply upd_other. Qed.
Lemma stores_big m d x y : ~ (- 2 ^ 63 <= x <= 2 ^ 63 - 1) -> x = y -> stores (Ok (upd m d (Big x))) m d y.
Proof. intros H <-. eexists. split; [reflexivity|]. rewrite upd_same. cbn. repeat split; try lia. apply upd_other. Qed.
Lemma stores_demote m d x y : x = y -> stores (Ok (upd (ensure m d) d (demote x))) m d y.
Proof.
  intros <-. eexists. split; [reflexivity|]. rewrite upd_same. destruct (demote_ok x).
  split; [assumption|]. split; [assumption|]. intros e He. rewrite upd_other by assumption. unfold ensure. apply upd_other, He.
Qed.
Lemma ensure_small m d b : is_small (ensure m d b) = true -> ensure m d b = m b /\ b <> d.
Proof. unfold ensure, upd. destruct (Nat.eqb_spec b d); [discriminate|auto]. Qed.
Lemma ok_small a : is_small a = true -> zz_ok a -> - 2 ^ 63 <= zval a <= 2 ^ 63 - 1.
Proof. destruct a; [auto|discriminate]. Qed.

Lemma zz_add_assign_ok strict m d b : negsafe strict (m b) -> zz_ok (m d) -> zz_ok (m b) ->
  stores (zz_add_assign strict m d b) m d (zval (m d) + zval (m b)).
Proof.
  intros Sb Hd Hb. unfold zz_add_assign. change raw with zval.
  destruct (is_small (m d) && is_small (m b) && fits64 _) eqn:E.
  - apply andb_prop in E as [_ E]. apply stores_small; [i64; lia|reflexivity].
  - cbv zeta. rewrite !raw_ensure.
    destruct (is_small (ensure m d b)) eqn:Es; [|apply stores_demote; reflexivity].
    apply ensure_small in Es as Es'. destruct Es' as [Eb Nb]. rewrite Eb in Es.
    rewrite add_si_ok; [apply stores_demote; reflexivity| |apply ok_small; assumption].
    destruct Sb as [S|S]; [left; exact S|right; exact S].
Qed.
Lemma zz_sub_assign_ok strict m d b : negsafe strict (m b) -> zz_ok (m d) -> zz_ok (m b) ->
  stores (zz_sub_assign strict m d b) m d (zval (m d) - zval (m b)).
Proof.
  intros Sb Hd Hb. unfold zz_sub_assign. change raw with zval.
  destruct (is_small (m d) && is_small (m b) && fits64 _) eqn:E.
  - apply andb_prop in E as [_ E]. apply stores_small; [i64; lia|reflexivity].
  - cbv zeta. rewrite !raw_ensure.
    destruct (is_small (ensure m d b)) eqn:Es; [|apply stores_demote; reflexivity].
    apply ensure_small in Es as Es'. destruct Es' as [Eb Nb]. rewrite Eb in Es.
    rewrite sub_si_ok; [apply stores_demote; reflexivity| |apply ok_small; assumption].
    destruct Sb as [S|S]; [left; exact S|right; exact S].
Qed.
Lemma zz_mul_assign_ok m d b : zz_ok (m d) -> zz_ok (m b) ->
  stores (zz_mul_assign m d b) m d (zval (m d) * zval (m b)).
Proof.
  intros Hd Hb. unfold zz_mul_assign. change raw with zval.
  destruct (is_small (m d) && is_small (m b)) eqn:E.
  - apply andb_prop in E as [E1 E2]. pose proof (i128_prod _ _ (ok_small _ E1 Hd) (ok_small _ E2 Hb)).
    rewrite i128_ok_eq by lia. cbn [obind]. destruct (fits64 _) eqn:F.
    + apply stores_small; [i64; lia|reflexivity].
    + apply stores_demote. rewrite !raw_ensure. reflexivity.
  - apply stores_demote. rewrite !raw_ensure. reflexivity.
Qed.
Lemma zz_addmul_ok m d a b : zz_ok (m d) -> zz_ok (m a) -> zz_ok (m b) ->
  stores (zz_addmul m d a b) m d (zval (m d) + zval (m a) * zval (m b)).
Proof.
  intros Hd Ha Hb. unfold zz_addmul. change raw with zval.
  destruct (is_small (m d) && is_small (m a) && is_small (m b)) eqn:E.
  - apply andb_prop in E as [E E2]. apply andb_prop in E as [E0 E1].
    pose proof (i128_prod _ _ (ok_small _ E1 Ha) (ok_small _ E2 Hb)). pose proof (ok_small _ E0 Hd).
    rewrite i128_ok_eq by lia. cbn [obind]. rewrite i128_ok_eq by lia. cbn [obind]. destruct (fits64 _) eqn:F.
    + apply stores_small; [i64; lia|reflexivity].
    + apply stores_demote. rewrite !raw_ensure. reflexivity.
  - apply stores_demote. rewrite !raw_ensure. reflexivity.
Qed.
Lemma zz_submul_ok m d a b : zz_ok (m d) -> zz_ok (m a) -> zz_ok (m b) ->
  stores (zz_submul m d a b) m d (zval (m d) - zval (m a) * zval (m b)).
Proof.
  intros Hd Ha Hb. unfold zz_submul. change raw with zval.
  destruct (is_small (m d) && is_small (m a) && is_small (m b)) eqn:E.
  - apply andb_prop in E as [E E2]. apply andb_prop in E as [E0 E1].
    pose proof (i128_prod _ _ (ok_small _ E1 Ha) (ok_small _ E2 Hb)). pose proof (ok_small _ E0 Hd).
    rewrite i128_ok_eq by lia. cbn [obind]. rewrite i128_ok_eq by lia. cbn [obind]. destruct (fits64 _) eqn:F.
    + apply stores_small; [i64; lia|reflexivity].
    + apply stores_demote. rewrite !raw_ensure. reflexivity.
  - apply stores_demote. rewrite !raw_ensure. reflexivity.
Qed.
Lemma stores_of_is o m d x : is_zz o x -> stores (r <- o ;; Ok (upd m d r)) m d x.
Proof.
  intros (r & -> & H1 & H2). cbn [obind]. eexists. split; [reflexivity|]. rewrite upd_same. repeat split; try assumption. apply upd_other.
Qed.

Lemma zz_shr_ok a n : zz_ok a -> 0 <= n -> zz_ok (zz_shr a n) /\ zval (zz_shr a n) = zval a / 2 ^ n.
Proof.
  intros Ha Hn. destruct a as [x|x]; cbn [zz_shr zval zz_ok] in *; [|apply demote_ok].
  destruct (Z.leb_spec 63 n) as [H|H].
  - assert (2 ^ 63 <= 2 ^ n) by (apply Z.pow_le_mono_r; lia).
    destruct (Z.ltb_spec x 0); cbn [zz_ok zval]; (split; [lia|]).
    + apply (Z.div_unique x (2 ^ n) (-1) (x + 2 ^ n)); lia.
    + symmetry. apply Z.div_small. lia.
  - cbn [zz_ok zval]. split; [|reflexivity].
    assert (0 < 2 ^ n) by (apply Z.pow_pos_nonneg; lia).
    split; [apply Z.div_le_lower_bound; nia|].
    assert (x / 2 ^ n < 2 ^ 63); [|lia]. apply Z.div_lt_upper_bound; nia.
Qed.
Lemma zz_shl_ok a n : zz_ok (zz_shl a n) /\ zval (zz_shl a n) = zval a * 2 ^ n.
Proof. unfold zz_shl. change raw with zval. apply demote_ok. Qed.

Lemma neg_mod x d : 0 < d -> (if - x mod d =? 0 then 0 else d - (- x) mod d) = x mod d.
Proof.
  intros Hd. destruct (Z.eqb_spec (- x mod d) 0) as [E|E].
  - symmetry. pose proof (Z_mod_zero_opp_full (- x) d E) as X. rewrite Z.opp_involutive in X. exact X.
  - pose proof (Z_mod_nz_opp_full (- x) d E) as X. rewrite Z.opp_involutive in X. lia.
Qed.
Lemma zz_fdiv_ui_ok strict a d : negsafe strict a -> zz_ok a -> 0 < d < 2 ^ 64 ->
  zz_fdiv_ui strict a d = Ok (zval a mod d).
Proof.
  intros S Ha Hd. destruct a as [x|x]; cbn [zz_fdiv_ui zval zz_ok] in *; [|apply gdiv_ok; lia].
  destruct (Z.eqb_spec d 0); [lia|]. destruct (Z.leb_spec 0 x).
  - f_equal. f_equal. i64. apply Z.mod_small. lia.
  - destruct (neg64_ok strict x S) as (n' & -> & E); [lia|]. cbn [obind]. rewrite E. f_equal. apply neg_mod. lia.
Qed.

(** floor adjustment *)
Lemma floor_adjust x y : y <> 0 ->
  let adj := negb (Z.rem x y =? 0) && (Z.lxor (Z.rem x y) y <? 0) in
  (if adj then Z.quot x y - 1 else Z.quot x y) = x / y /\ (if adj then Z.rem x y + y else Z.rem x y) = x mod y.
Proof.
  intros Hy adj. pose proof (Z.quot_rem' x y) as E. pose proof (Z.rem_bound_abs x y Hy) as B.
  pose proof (Z.lxor_nonneg (Z.rem x y) y) as L.
  set (q := Z.quot x y) in *. set (r := Z.rem x y) in *.
  assert (U : forall q' r', x = y * q' + r' -> 0 <= r' < y \/ y < r' <= 0 -> q' = x / y /\ r' = x mod y).
  { intros q' r' E' B'. split; [eapply Z.div_unique; [exact B'|exact E']|eapply Z.mod_unique; [exact B'|exact E']]. }
  destruct adj eqn:EA; unfold adj in EA.
  - apply U; [lia|]. destruct (Z.eqb_spec r 0); [discriminate|]. cbn in EA.
    assert (~ (0 <= r <-> 0 <= y)) by lia. destruct (Z.le_gt_cases 0 r), (Z.le_gt_cases 0 y); lia.
  - apply U; [lia|]. destruct (Z.eqb_spec r 0) as [e|]; [lia|]. cbn in EA.
    assert (0 <= r <-> 0 <= y) by lia. destruct (Z.le_gt_cases 0 r), (Z.le_gt_cases 0 y); lia.
Qed.
Lemma quot64_ok x y : y <> 0 -> ~ (x = - 2 ^ 63 /\ y = -1) -> quot64 x y = Ok (Z.quot x y).
Proof.
  intros Hy Hn. unfold quot64. destruct (Z.eqb_spec y 0); [contradiction|].
  destruct (Z.eqb_spec x i64min), (Z.eqb_spec y (-1)); try reflexivity. exfalso. apply Hn. split; assumption.
Qed.
Lemma rem64_ok x y : y <> 0 -> ~ (x = - 2 ^ 63 /\ y = -1) -> rem64 x y = Ok (Z.rem x y).
Proof.
  intros Hy Hn. unfold rem64. destruct (Z.eqb_spec y 0); [contradiction|].
  destruct (Z.eqb_spec x i64min), (Z.eqb_spec y (-1)); try reflexivity. exfalso. apply Hn. split; assumption.
Qed.
Lemma div_range x y : - 2 ^ 63 <= x <= 2 ^ 63 - 1 -> y <> 0 -> ~ (x = - 2 ^ 63 /\ y = -1) ->
  - 2 ^ 63 <= x / y <= 2 ^ 63 - 1.
Proof.
  intros Hx Hy Hn. destruct (Z.eq_dec y (-1)) as [->|].
  { replace (x / -1) with (- x); [lia|]. symmetry. change (-1) with (- (1)). rewrite <- (Z.opp_involutive x) at 1. rewrite Z.div_opp_opp by lia. apply Z.div_1_r. }
  pose proof (Z.div_mod x y Hy) as E.
  destruct (Z.lt_ge_cases 0 y) as [P|P].
  - pose proof (Z.mod_pos_bound x y P). split; [apply Z.div_le_lower_bound; nia|]. assert (x / y < 2 ^ 63); [|lia]. apply Z.div_lt_upper_bound; nia.
  - pose proof (Z.mod_neg_bound x y ltac:(lia)). assert (y <= -2) by lia. split; nia.
Qed.
Lemma mod_range x y : - 2 ^ 63 <= y <= 2 ^ 63 - 1 -> y <> 0 -> - 2 ^ 63 <= x mod y <= 2 ^ 63 - 1.
Proof.
  intros Hy Hn. destruct (Z.lt_ge_cases 0 y) as [P|P].
  - pose proof (Z.mod_pos_bound x y P). lia.
  - pose proof (Z.mod_neg_bound x y ltac:(lia)). lia.
Qed.

Lemma zz_fdiv_q_ok m q a b : zz_ok (m a) -> zz_ok (m b) ->
  if zval (m b) =? 0 then zz_fdiv_q m q a b = Throw
  else stores (zz_fdiv_q m q a b) m q (zval (m a) / zval (m b)).
Proof.
  intros Ha Hb. unfold zz_fdiv_q. change raw with zval. cbv zeta. rewrite !raw_ensure.
  destruct (is_small (m a) && is_small (m b)) eqn:E.
  - apply andb_prop in E as [E1 E2]. pose proof (ok_small _ E1 Ha). pose proof (ok_small _ E2 Hb).
    destruct (Z.eqb_spec (zval (m b)) 0) as [|Hy]; [reflexivity|].
    destruct ((zval (m a) =? i64min) && (zval (m b) =? -1)) eqn:Em.
    + assert (A : zval (m a) = - 2 ^ 63 /\ zval (m b) = -1) by (i64; lia). destruct A as [A B].
      apply stores_big; rewrite A; [lia|rewrite B; reflexivity].
    + assert (N : ~ (zval (m a) = - 2 ^ 63 /\ zval (m b) = -1)) by (i64; lia).
      rewrite quot64_ok, rem64_ok by assumption. cbn [obind].
      destruct (floor_adjust (zval (m a)) (zval (m b)) Hy) as [F _]. rewrite F.
      apply stores_small; [apply div_range; assumption|reflexivity].
  - unfold gdiv. destruct (Z.eqb_spec (zval (m b)) 0) as [|Hy]; [reflexivity|]. apply stores_demote. reflexivity.
Qed.
Lemma zz_fdiv_r_ok m r a b : zz_ok (m a) -> zz_ok (m b) -> ~ (zval (m a) = - 2 ^ 63 /\ zval (m b) = -1) ->
  if zval (m b) =? 0 then zz_fdiv_r m r a b = Throw
  else stores (zz_fdiv_r m r a b) m r (zval (m a) mod zval (m b)).
Proof.
  intros Ha Hb N. unfold zz_fdiv_r. change raw with zval. cbv zeta. rewrite !raw_ensure.
  destruct (is_small (m a) && is_small (m b)) eqn:E.
  - apply andb_prop in E as [E1 E2]. pose proof (ok_small _ E1 Ha). pose proof (ok_small _ E2 Hb).
    destruct (Z.eqb_spec (zval (m b)) 0) as [|Hy]; [reflexivity|].
    rewrite rem64_ok by assumption. cbn [obind].
    destruct (floor_adjust (zval (m a)) (zval (m b)) Hy) as [_ F]. rewrite F.
    apply stores_small; [apply mod_range; assumption|reflexivity].
  - unfold gdiv. destruct (Z.eqb_spec (zval (m b)) 0) as [|Hy]; [reflexivity|]. apply stores_demote. reflexivity.
Qed.
Lemma stores2_intro m m1 q r u v x y : q <> r -> zz_ok u -> zval u = x -> zz_ok v -> zval v = y ->
  (forall e, e <> q -> e <> r -> m1 e = m e) -> stores2 (Ok (upd (upd m1 q u) r v)) m q r x y.
Proof.
  intros N A B C D O. eexists. split; [reflexivity|]. rewrite upd_same, (upd_other _ r v q N), upd_same.
  repeat split; try assumption. intros e E1 E2. rewrite !upd_other by assumption. apply O; assumption.
Qed.
Lemma raw_ensure2 m q r e : zval (ensure (ensure m q) r e) = zval (m e).
Proof. rewrite !raw_ensure. reflexivity. Qed.
Lemma zz_fdiv_qr_ok m q r a b : q <> r -> zz_ok (m a) -> zz_ok (m b) ->
  if zval (m b) =? 0 then zz_fdiv_qr m q r a b = Throw
  else stores2 (zz_fdiv_qr m q r a b) m q r (zval (m a) / zval (m b)) (zval (m a) mod zval (m b)).
Proof.
  intros Hqr Ha Hb. unfold zz_fdiv_qr. change raw with zval. cbv zeta. rewrite !raw_ensure2.
  destruct (is_small (m a) && is_small (m b)) eqn:E.
  - apply andb_prop in E as [E1 E2]. pose proof (ok_small _ E1 Ha). pose proof (ok_small _ E2 Hb).
    destruct (Z.eqb_spec (zval (m b)) 0) as [|Hy]; [reflexivity|].
    destruct ((zval (m a) =? i64min) && (zval (m b) =? -1)) eqn:Em.
    + assert (A : zval (m a) = - 2 ^ 63 /\ zval (m b) = -1) by (i64; lia). destruct A as [A B].
      apply stores2_intro; try assumption; cbn [zz_ok zval]; rewrite ?A, ?B; try lia; try reflexivity; auto.
    + assert (N : ~ (zval (m a) = - 2 ^ 63 /\ zval (m b) = -1)) by (i64; lia).
      rewrite quot64_ok, rem64_ok by assumption. cbn [obind].
      destruct (floor_adjust (zval (m a)) (zval (m b)) Hy) as [F1 F2]. rewrite F1, F2.
      apply stores2_intro; auto; cbn [zz_ok]; [apply div_range; assumption|apply mod_range; assumption].
  - unfold gdiv. destruct (Z.eqb_spec (zval (m b)) 0) as [|Hy]; [reflexivity|]. cbn [obind].
    apply stores2_intro; try apply demote_ok; [assumption|]. intros e E1' E2'. unfold ensure. rewrite !upd_other by assumption. reflexivity.
Qed.

Lemma zz_pow_ok a n : zz_ok a -> 0 <= n -> zz_ok (zz_pow a n) /\ zval (zz_pow a n) = zval a ^ n.
Proof.
  intros Ha Hn. unfold zz_pow.
  destruct (Z.eqb_spec n 0) as [->|]; [cbn; split; [lia|reflexivity]|].
  destruct (Z.eqb_spec n 1) as [->|]; [rewrite Z.pow_1_r; auto|].
  rewrite zz_is_zero_ok, zz_is_one_ok.
  destruct (Z.eqb_spec (zval a) 0) as [->|]; [rewrite Z.pow_0_l by lia; cbn; split; [lia|reflexivity]|].
  destruct (Z.eqb_spec (zval a) 1) as [->|]; [rewrite Z.pow_1_l by lia; cbn; split; [lia|reflexivity]|].
  change raw with zval. apply demote_ok.
Qed.

(** gcd *)
Lemma rem_half x y : 0 < y <= x -> 2 * Z.rem x y < x.
Proof.
  intros H. rewrite Z.rem_mod_nonneg by lia. pose proof (Z.mod_pos_bound x y ltac:(lia)).
  pose proof (Z.div_mod x y ltac:(lia)). assert (1 <= x / y) by (apply Z.div_le_lower_bound; lia). nia.
Qed.
Lemma euclid64_ok n : forall x y fuel, 0 <= y <= x -> y < 2 ^ Z.of_nat n -> (2 * n + 1 <= fuel)%nat ->
  euclid64 fuel x y = Ok (Z.gcd x y).
Proof.
  assert (G : forall x y, y <> 0 -> Z.gcd y (Z.rem x y) = Z.gcd x y).
  { intros x y H. rewrite (Z.gcd_comm x y), (Z.gcd_comm y (Z.rem x y)). apply Z.gcd_rem. exact H. }
  assert (Z0 : forall x, 0 <= x -> Z.gcd x 0 = x) by (intros x H; rewrite Z.gcd_0_r, Z.abs_eq by lia; reflexivity).
  induction n as [|n IH]; intros x y fuel Hy Hb Hf.
  - assert (y = 0) as -> by (cbn in Hb; lia). destruct fuel as [|f]; [lia|]. cbn. rewrite Z0 by lia. reflexivity.
  - destruct fuel as [|[|[|f]]]; [lia..|]. cbn [euclid64].
    destruct (Z.eqb_spec y 0) as [->|Ny]; [rewrite Z0 by lia; reflexivity|].
    rewrite rem64_ok by lia. cbn [obind]. pose proof (Z.rem_bound_pos x y ltac:(lia) ltac:(lia)) as Br.
    destruct (Z.eqb_spec (Z.rem x y) 0) as [E|E].
    + rewrite <- (G x y), E, Z0 by lia. reflexivity.
    + rewrite rem64_ok by lia. cbn [obind]. rewrite <- (G x y Ny), <- (G y (Z.rem x y) E).
      change (if Z.rem y (Z.rem x y) =? 0 then Ok (Z.rem x y) else r <- rem64 (Z.rem x y) (Z.rem y (Z.rem x y)) ;; euclid64 f (Z.rem y (Z.rem x y)) r)
        with (euclid64 (S f) (Z.rem x y) (Z.rem y (Z.rem x y))).
      pose proof (Z.rem_bound_pos y (Z.rem x y) ltac:(lia) ltac:(lia)).
      pose proof (rem_half y (Z.rem x y) ltac:(lia)).
      apply IH; [lia| |lia]. rewrite Nat2Z.inj_succ, Z.pow_succ_r in Hb by lia. lia.
Qed.
Lemma euclid64_any x y : 0 <= x < 2 ^ 63 -> 0 <= y < 2 ^ 63 -> euclid64 130 x y = Ok (Z.gcd x y).
Proof.
  intros Hx Hy. destruct (Z.le_gt_cases y x) as [L|L].
  - apply (euclid64_ok 64); [lia|lia|lia].
  - change (euclid64 130 x y) with (if y =? 0 then Ok x else r <- rem64 x y ;; euclid64 129 y r).
    destruct (Z.eqb_spec y 0); [lia|]. rewrite rem64_ok by lia. cbn [obind].
    rewrite Z.rem_small by lia. rewrite Z.gcd_comm. apply (euclid64_ok 64); lia.
Qed.
Lemma abs64_ok strict x : x <> - 2 ^ 63 -> abs64 strict x = Ok (Z.abs x).
Proof.
  intros H. unfold abs64, neg64. destruct (Z.ltb_spec x 0); [|f_equal; lia].
  destruct (Z.eqb_spec x i64min); [contradiction|]. f_equal. lia.
Qed.
Lemma abs64_total strict x : strict = false -> exists v, abs64 strict x = Ok v.
Proof. intros ->. unfold abs64, neg64. destruct (x <? 0), (x =? i64min); eauto. Qed.

Lemma zz_gcd_ok strict a b : negsafe strict a -> negsafe strict b -> zz_ok a -> zz_ok b ->
  is_zz (zz_gcd strict a b) (Z.gcd (zval a) (zval b)).
Proof.
  intros Sa Sb Ha Hb. destruct a as [x|x], b as [y|y]; cbn [zz_gcd zval zz_ok] in *; try (apply demote_is; reflexivity).
  assert (Sx : exists v, abs64 strict x = Ok v /\ (x <> - 2 ^ 63 -> v = Z.abs x)).
  { destruct Sa as [S|S]; cbn [zval] in *.
    - destruct (Z.eq_dec x (- 2 ^ 63)) as [e|e].
      + destruct (abs64_total strict x S) as [v Hv]. exists v. split; [exact Hv|contradiction].
      + exists (Z.abs x). split; [apply abs64_ok, e|auto].
    - exists (Z.abs x). split; [apply abs64_ok, S|auto]. }
  assert (Sy : exists v, abs64 strict y = Ok v /\ (y <> - 2 ^ 63 -> v = Z.abs y)).
  { destruct Sb as [S|S]; cbn [zval] in *.
    - destruct (Z.eq_dec y (- 2 ^ 63)) as [e|e].
      + destruct (abs64_total strict y S) as [v Hv]. exists v. split; [exact Hv|contradiction].
      + exists (Z.abs y). split; [apply abs64_ok, e|auto].
    - exists (Z.abs y). split; [apply abs64_ok, S|auto]. }
  destruct Sx as (vx & -> & Ex), Sy as (vy & -> & Ey). cbn [obind].
  destruct ((x =? i64min) || (y =? i64min)) eqn:E; [apply demote_is; reflexivity|].
  rewrite Ex, Ey by (i64; lia). rewrite euclid64_any by (i64; lia). cbn [omap obind].
  replace (Z.gcd (Z.abs x) (Z.abs y)) with (Z.gcd x y) by (rewrite Z.gcd_abs_l, Z.gcd_abs_r; reflexivity).
  apply small_is. pose proof (Z.gcd_nonneg x y). split; [lia|].
  destruct (Z.eq_dec x 0) as [->|Nx].
  - rewrite Z.gcd_0_l. i64; lia.
  - pose proof (Z.gcd_divide_l x y) as D. apply Z.divide_abs_r in D. apply Z.divide_pos_le in D; i64; lia.
Qed.

Lemma zz_lcm_ok strict a b : zz_ok a -> zz_ok b -> is_zz (zz_lcm strict a b) (Z.lcm (zval a) (zval b)).
Proof.
  intros Ha Hb. unfold zz_lcm. rewrite !zz_is_zero_ok.
  destruct (Z.eqb_spec (zval a) 0) as [E|Na]; cbn [orb].
  { rewrite E, Z.lcm_0_l. apply small_is. lia. }
  destruct (Z.eqb_spec (zval b) 0) as [E|Nb]; cbn [orb].
  { rewrite E, Z.lcm_0_r. apply small_is. lia. }
  destruct a as [x|x], b as [y|y]; cbn [zval zz_ok] in *; try (apply demote_is; reflexivity).
  destruct (negb (x =? i64min) && negb (y =? i64min)) eqn:E; [|apply demote_is; reflexivity].
  assert (Hx : x <> - 2 ^ 63) by (i64; lia). assert (Hy : y <> - 2 ^ 63) by (i64; lia).
  destruct (zz_gcd_ok strict (Small x) (Small y)) as (g & -> & Og & Eg); [right; exact Hx|right; exact Hy|exact Ha|exact Hb|].
  cbn [obind zval] in *. rewrite !abs64_ok by assumption. cbn [obind]. change raw with zval; rewrite Eg.
  assert (Gp : 0 < Z.gcd x y).
  { pose proof (Z.gcd_nonneg x y). assert (Z.gcd x y <> 0); [|lia]. intros G0. apply Z.gcd_eq_0 in G0. lia. }
  rewrite quot64_ok by lia. cbn [obind].
  assert (EL : Z.quot (Z.abs x) (Z.gcd x y) * Z.abs y = Z.lcm x y).
  { unfold Z.lcm. rewrite Z.quot_div_nonneg by lia.
    destruct (Z.gcd_divide_l x y) as [k Hk]. destruct (Z.gcd_divide_r x y) as [l Hl].
    assert (A : forall g0 k0 l0, 0 < g0 -> Z.abs (k0 * g0) / g0 * Z.abs (l0 * g0) = Z.abs (k0 * g0 * (l0 * g0 / g0))).
    { intros g0 k0 l0 Hg. rewrite Z.div_mul by lia. rewrite !Z.abs_mul, (Z.abs_eq g0) by lia. rewrite Z.div_mul by lia. ring. }
    remember (Z.gcd x y) as g0. rewrite Hk, Hl. apply A, Gp. }
  assert (Bq : 0 <= Z.quot (Z.abs x) (Z.gcd x y) <= Z.abs x).
  { split; [apply Z.quot_pos; lia|]. apply Z.quot_le_upper_bound; nia. }
  rewrite i128_ok_eq by nia. cbn [obind]. rewrite EL.
  destruct ((0 <=? Z.lcm x y) && (Z.lcm x y <=? i64max)) eqn:F.
  - apply small_is. i64; lia.
  - apply demote_is. reflexivity.
Qed.

Lemma zz_of_u64_ok v : 0 <= v < 2 ^ 64 -> zz_ok (zz_of_u64 v) /\ zval (zz_of_u64 v) = v.
Proof. intros H. unfold zz_of_u64. destruct (Z.leb_spec v i64max); i64; cbn; split; lia. Qed.
