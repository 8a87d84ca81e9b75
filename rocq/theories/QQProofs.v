(** * QQ computes exactly, in lowest terms; QQ as a coefficient field. *)
From Coq Require Import QArith Qfield Qabs Eqdep_dec Znumtheory Zpow_facts Qpower.
From Verif Require Import Prelude Coef QQ NumSpec.
Local Open Scope Z_scope.

Lemma qval_eq a b : 0 < qden a -> 0 < qden b -> ((qval a == qval b)%Q <-> qnum a * qden b = qnum b * qden a).
Proof. intros Ha Hb. unfold Qeq, qval. cbn. rewrite !Z2Pos.id by assumption. reflexivity. Qed.

Lemma canonicalize_ok n d : d <> 0 ->
  qq_ok (canonicalize (Qq n d)) /\ qnum (canonicalize (Qq n d)) * d = n * qden (canonicalize (Qq n d)).
Proof.
  intros Hd. unfold canonicalize. cbn [qnum qden].
  destruct (Z.eqb_spec n 0) as [->|Hn].
  { unfold qq_ok. cbn. repeat split; lia. }
  assert (K : forall n d, n <> 0 -> 0 < d ->
    let r := (let g := Z.gcd (Z.abs n) d in if negb (g =? 1) then Qq (Z.quot n g) (Z.quot d g) else Qq n d) in
    qq_ok r /\ qnum r * d = n * qden r).
  { clear. intros n d Hn Hd. cbv zeta. rewrite Z.gcd_abs_l.
    assert (Gp : 0 < Z.gcd n d).
    { pose proof (Z.gcd_nonneg n d). assert (Z.gcd n d <> 0); [|lia]. intros G. apply Z.gcd_eq_0 in G. lia. }
    destruct (Z.gcd_divide_l n d) as [k Hk]. destruct (Z.gcd_divide_r n d) as [l Hl].
    assert (G1 : Z.gcd k l = 1).
    { assert (X : Z.gcd n d = Z.gcd k l * Z.gcd n d).
      { assert (A : forall g, n = k * g -> d = l * g -> 0 < g -> Z.gcd n d = Z.gcd k l * g).
        { intros g -> -> Hg. rewrite Z.gcd_mul_mono_r, (Z.abs_eq g) by lia. reflexivity. }
        apply A; assumption. }
      clear - X Gp. nia. }
    destruct (Z.eqb_spec (Z.gcd n d) 1) as [E|E]; cbn [negb].
    - unfold qq_ok. cbn. repeat split; assumption || lia.
    - unfold qq_ok. cbn [qnum qden]. set (g := Z.gcd n d) in *. rewrite Hk, Hl, !Z.quot_mul by lia.
      repeat split; [nia|exact G1|ring]. }
  destruct (Z.ltb_spec (Z.sgn d) 0).
  - destruct (K (- n) (- d) ltac:(lia) ltac:(lia)) as [A B]. split; [exact A|]. cbv zeta in *.
    remember (if negb (Z.gcd (Z.abs (- n)) (- d) =? 1) then _ else _) as r. lia.
  - apply K; lia.
Qed.
Lemma canonicalize_val n d q : d <> 0 -> (q * inject_Z d == inject_Z n)%Q -> (qval (canonicalize (Qq n d)) == q)%Q.
Proof.
  intros Hd Hq. destruct (canonicalize_ok n d Hd) as [[Hp _] E].
  remember (canonicalize (Qq n d)) as r. clear Heqr.
  assert (Dz : ~ (inject_Z d == 0)%Q) by (unfold Qeq; cbn; lia).
  apply (Qmult_inj_r _ _ (inject_Z d) Dz). rewrite Hq. unfold qval, inject_Z, Qeq, Qmult. cbn.
  rewrite Pos.mul_1_r, Z2Pos.id by assumption. lia.
Qed.
Lemma qval_num a : 0 < qden a -> (qval a * inject_Z (qden a) == inject_Z (qnum a))%Q.
Proof. intros H. unfold qval, inject_Z, Qeq, Qmult. cbn. rewrite Pos.mul_1_r, Z2Pos.id by assumption. lia. Qed.

Lemma qq_unique a b : qq_ok a -> qq_ok b -> (qval a == qval b)%Q -> a = b.
Proof.
  intros [Pa Ga] [Pb Gb] E. apply qval_eq in E; [|assumption..].
  assert (D1 : (qden a | qden b)).
  { apply (Z.gauss _ (qnum a)); [|rewrite Z.gcd_comm; exact Ga]. exists (qnum b). lia. }
  assert (D2 : (qden b | qden a)).
  { apply (Z.gauss _ (qnum b)); [|rewrite Z.gcd_comm; exact Gb]. exists (qnum a). lia. }
  assert (Ed : qden a = qden b) by (apply Z.divide_antisym_nonneg; (assumption || lia)).
  destruct a as [n d], b as [n' d']. cbn in *. subst d'. f_equal. apply (Z.mul_reg_r _ _ d); lia.
Qed.

Lemma qq_int_ok v : qq_ok (qq_int v) /\ (qval (qq_int v) == inject_Z v)%Q.
Proof. split; [split; cbn; [lia|apply Z.gcd_1_r]|reflexivity]. Qed.
Lemma qq_make_ok n d : d <> 0 -> exists r, qq_make n d = Ok r /\ qq_ok r /\ (qval r * inject_Z d == inject_Z n)%Q.
Proof.
  intros Hd. unfold qq_make. destruct (Z.eqb_spec d 0); [contradiction|]. eexists. split; [reflexivity|].
  split; [apply canonicalize_ok, Hd|].
  destruct (canonicalize_ok n d Hd) as [[Hp _] E]. remember (canonicalize (Qq n d)) as r.
  unfold qval, inject_Z, Qeq, Qmult. cbn. rewrite Pos.mul_1_r, Z2Pos.id by assumption. lia.
Qed.
Lemma qq_eqb_ok a b : qq_ok a -> qq_ok b -> (qq_eqb a b = true <-> (qval a == qval b)%Q).
Proof.
  intros Ha Hb. unfold qq_eqb. split.
  - intros H. destruct a as [n d], b as [n' d']. cbn in *. assert (n = n') as -> by lia. assert (d = d') as -> by lia. reflexivity.
  - intros H. rewrite (qq_unique a b Ha Hb H), !Z.eqb_refl. reflexivity.
Qed.
Lemma qq_ltb_ok a b : qq_ok a -> qq_ok b -> (qq_ltb a b = true <-> (qval a < qval b)%Q).
Proof.
  intros [Pa _] [Pb _]. unfold qq_ltb, Qlt, qval. cbn. rewrite !Z2Pos.id by assumption. apply Z.ltb_lt.
Qed.
Lemma qq_is_zero_ok a : qq_is_zero a = true <-> (qval a == 0)%Q.
Proof. unfold qq_is_zero, Qeq, qval. cbn. rewrite Z.eqb_eq. lia. Qed.
Lemma qq_neg_ok a : qq_ok a -> qq_ok (qq_neg a) /\ (qval (qq_neg a) == - qval a)%Q.
Proof. intros [Pa Ga]. split; [|reflexivity]. split; cbn; [exact Pa|]. rewrite Z.gcd_opp_l. exact Ga. Qed.

Ltac qpos Ha := let P := fresh "P" in pose proof (proj1 Ha) as P.
Lemma qq_add_ok a b : qq_ok a -> qq_ok b -> qq_ok (qq_add a b) /\ (qval (qq_add a b) == qval a + qval b)%Q.
Proof.
  intros Ha Hb. qpos Ha. qpos Hb. unfold qq_add. split; [apply canonicalize_ok; nia|].
  apply canonicalize_val; [nia|]. rewrite inject_Z_plus, !inject_Z_mult.
  rewrite <- (qval_num a P), <- (qval_num b P0). ring.
Qed.
Lemma qq_sub_ok a b : qq_ok a -> qq_ok b -> qq_ok (qq_sub a b) /\ (qval (qq_sub a b) == qval a - qval b)%Q.
Proof.
  intros Ha Hb. qpos Ha. qpos Hb. unfold qq_sub. split; [apply canonicalize_ok; nia|].
  apply canonicalize_val; [nia|]. unfold Z.sub. rewrite inject_Z_plus, inject_Z_opp, !inject_Z_mult.
  rewrite <- (qval_num a P), <- (qval_num b P0). ring.
Qed.
Lemma qq_mul_ok a b : qq_ok a -> qq_ok b -> qq_ok (qq_mul a b) /\ (qval (qq_mul a b) == qval a * qval b)%Q.
Proof.
  intros Ha Hb. qpos Ha. qpos Hb. unfold qq_mul. split; [apply canonicalize_ok; nia|].
  apply canonicalize_val; [nia|]. rewrite !inject_Z_mult.
  rewrite <- (qval_num a P), <- (qval_num b P0). ring.
Qed.
Lemma qq_div_ok a b : qq_ok a -> qq_ok b ->
  if qq_is_zero b then qq_div a b = Throw
  else exists r, qq_div a b = Ok r /\ qq_ok r /\ (qval r == qval a / qval b)%Q.
Proof.
  intros Ha Hb. qpos Ha. qpos Hb. unfold qq_div, qq_is_zero. destruct (Z.eqb_spec (qnum b) 0) as [|Nb]; [reflexivity|].
  eexists. split; [reflexivity|]. split; [apply canonicalize_ok; nia|].
  apply canonicalize_val; [nia|]. rewrite !inject_Z_mult.
  rewrite <- (qval_num a P), <- (qval_num b P0). field.
  unfold Qeq, qval. cbn. lia.
Qed.
Lemma qq_pow_ok a n : qq_ok a -> 0 <= n -> qq_ok (qq_pow a n) /\ (qval (qq_pow a n) == qval a ^ n)%Q.
Proof.
  intros [Pa Ga] Hn. assert (0 < qden a ^ n) by (apply Z.pow_pos_nonneg; lia). split.
  - split; cbn; [assumption|]. apply Zgcd_1_rel_prime. apply rel_prime_sym, rel_prime_Zpower_r; [exact Hn|].
    apply rel_prime_sym, rel_prime_Zpower_r; [exact Hn|]. apply Zgcd_1_rel_prime, Ga.
  - unfold qval at 1, qq_pow. cbn [qnum qden].
    destruct n as [|n|n]; [reflexivity| |lia].
    unfold qval. cbn [Qpower]. rewrite Qpower_decomp_positive. unfold Qeq. cbn [Qnum Qden].
    rewrite Z2Pos.id by assumption. f_equal.
    transitivity (Z.pos (Z.to_pos (qden a)) ^ Z.pos n); [|rewrite Z2Pos.id by assumption; reflexivity].
    apply Pos2Z.inj_pow.
Qed.
Lemma qq_abs_ok a : qq_ok a -> qq_ok (qq_abs a) /\ (qval (qq_abs a) == Qabs.Qabs (qval a))%Q.
Proof. intros [Pa Ga]. split; [|reflexivity]. split; cbn; [exact Pa|]. rewrite Z.gcd_abs_l. exact Ga. Qed.
Lemma qq_sgn_ok a : qq_ok a -> qq_sgn a = Z.sgn (Qnum (qval a)).
Proof. reflexivity. Qed.

(** ** QQ as a coefficient type: the values in lowest terms, with the operations of QQ.hh *)
Definition qq_okb (a : qq) : bool := (0 <? qden a) && (Z.gcd (qnum a) (qden a) =? 1).
Lemma qq_okb_ok a : qq_okb a = true <-> qq_ok a.
Proof. unfold qq_okb, qq_ok. lia. Qed.
Definition qqc := {a : qq | qq_okb a = true}.
Lemma qqc_eq (a b : qqc) : proj1_sig a = proj1_sig b -> a = b.
Proof.
  destruct a as [a Ha], b as [b Hb]. cbn. intros <-. f_equal. apply UIP_dec, bool_dec.
Qed.
Lemma qqc_ok (a : qqc) : qq_ok (proj1_sig a).
Proof. apply qq_okb_ok, (proj2_sig a). Qed.
Definition mkqqc (a : qq) (H : qq_ok a) : qqc := exist _ a (proj2 (qq_okb_ok a) H).

Definition qqc_int (v : Z) : qqc := mkqqc (qq_int v) (proj1 (qq_int_ok v)).
Definition qqc_add (a b : qqc) : qqc := mkqqc (qq_add (proj1_sig a) (proj1_sig b)) (proj1 (qq_add_ok _ _ (qqc_ok a) (qqc_ok b))).
Definition qqc_sub (a b : qqc) : qqc := mkqqc (qq_sub (proj1_sig a) (proj1_sig b)) (proj1 (qq_sub_ok _ _ (qqc_ok a) (qqc_ok b))).
Definition qqc_mul (a b : qqc) : qqc := mkqqc (qq_mul (proj1_sig a) (proj1_sig b)) (proj1 (qq_mul_ok _ _ (qqc_ok a) (qqc_ok b))).
Definition qqc_neg (a : qqc) : qqc := mkqqc (qq_neg (proj1_sig a)) (proj1 (qq_neg_ok _ (qqc_ok a))).
Definition qqc_eqb (a b : qqc) : bool := qq_eqb (proj1_sig a) (proj1_sig b).
(** [operator/]; the value for a zero divisor (an exception in the code) is irrelevant *)
Lemma qqc_quo_ok (a b : qqc) : qq_ok (match qq_div (proj1_sig a) (proj1_sig b) with Ok r => r | _ => qq_int 0 end).
Proof.
  pose proof (qq_div_ok _ _ (qqc_ok a) (qqc_ok b)) as X. destruct (qq_is_zero _).
  - rewrite X. apply qq_int_ok.
  - destruct X as (r & -> & H & _). exact H.
Qed.
Definition qqc_quo (a b : qqc) : qqc := mkqqc _ (qqc_quo_ok a b).
(** the operations polynomials use on QQ; [__div] with remainder does not exist for QQ, every quotient
    being exact its remainder is taken to be 0 (as number.hh 45-49 does for QQ from ZZ) *)
Definition QQc : coefs qqc :=
  Coefs qqc (qqc_int 0) (qqc_int 1) qqc_add qqc_mul qqc_sub qqc_neg qqc_eqb qqc_quo (fun _ _ => qqc_int 0).

Definition qcval (a : qqc) : Q := qval (proj1_sig a).
Lemma qcval_inj a b : (qcval a == qcval b)%Q -> a = b.
Proof. intros H. apply qqc_eq, qq_unique; [apply qqc_ok|apply qqc_ok|exact H]. Qed.
Lemma qcval_add a b : (qcval (qqc_add a b) == qcval a + qcval b)%Q. Proof. apply (qq_add_ok _ _ (qqc_ok a) (qqc_ok b)). Qed.
Lemma qcval_sub a b : (qcval (qqc_sub a b) == qcval a - qcval b)%Q. Proof. apply (qq_sub_ok _ _ (qqc_ok a) (qqc_ok b)). Qed.
Lemma qcval_mul a b : (qcval (qqc_mul a b) == qcval a * qcval b)%Q. Proof. apply (qq_mul_ok _ _ (qqc_ok a) (qqc_ok b)). Qed.
Lemma qcval_neg a : (qcval (qqc_neg a) == - qcval a)%Q. Proof. apply (qq_neg_ok _ (qqc_ok a)). Qed.
Lemma qcval_int v : (qcval (qqc_int v) == inject_Z v)%Q. Proof. reflexivity. Qed.

Lemma QQc_field : field_ok QQc.
Proof.
  assert (R : ring_ok QQc).
  { split.
    - constructor; cbn; intros; apply qcval_inj; rewrite ?qcval_add, ?qcval_sub, ?qcval_mul, ?qcval_neg, ?qcval_int;
        rewrite ?qcval_add, ?qcval_sub, ?qcval_mul, ?qcval_neg, ?qcval_int; try ring.
    - intros a b. cbn. unfold qqc_eqb. rewrite (qq_eqb_ok _ _ (qqc_ok a) (qqc_ok b)). split; [apply qcval_inj|].
      intros ->. reflexivity. }
  split.
  - split; [exact R| |].
    + intros a b H. cbn in *.
      assert (E : (qcval a * qcval b == 0)%Q) by (rewrite <- qcval_mul, H; reflexivity).
      apply Qmult_integral in E as [E|E]; [left|right]; apply qcval_inj; rewrite E; reflexivity.
    + cbn. intros H. assert (X : (qcval (qqc_int 1) == qcval (qqc_int 0))%Q) by (rewrite H; reflexivity). discriminate.
  - intros a b Hb. cbn in *. apply qcval_inj. rewrite qcval_mul.
    pose proof (qq_div_ok _ _ (qqc_ok a) (qqc_ok b)) as X.
    destruct (qq_is_zero (proj1_sig b)) eqn:E0.
    + exfalso. apply Hb. apply qcval_inj. apply qq_is_zero_ok in E0. unfold qcval. rewrite E0. reflexivity.
    + destruct X as (r & E & _ & V). unfold qcval at 1, qqc_quo, mkqqc. cbn [proj1_sig]. rewrite E.
      fold (qcval b). rewrite V. unfold qcval. field.
      intros C. apply qq_is_zero_ok in C. congruence.
  - reflexivity.
Qed.
