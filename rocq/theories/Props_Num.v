(** * C01-C05: the number types ZZ, QQ, Zp.
    [zval a] is the integer a ZZ denotes, [zz_ok a] says it is in canonical representation, [is_zz o x]
    says the call returned the canonical representation of [x]; [stores o m d x] is the same for an
    operation that writes object [d] of memory [m] (NumSpec.v).
    The first argument [false] of some operations selects wrap-around of -INT64_MIN (see ZZ.v). *)
From Coq Require Import QArith Qabs Znumtheory.
From Verif Require Import Prelude Coef ZZ QQ Zp NumSpec ZZProofs QQProofs ZpProofs.
Local Open Scope Z_scope.

Theorem C01_canonical_unique : forall a b, zz_ok a -> zz_ok b -> zval a = zval b -> a = b.
Proof. exact zz_ok_unique. Qed.
Print Assumptions C01_canonical_unique.
Theorem C01_constructors : forall v,
  (0 <= v < 2 ^ 64 -> zz_ok (zz_of_u64 v) /\ zval (zz_of_u64 v) = v) /\
  (zz_ok (zz_of_mpz v) /\ zval (zz_of_mpz v) = v).
Proof. intros v. split; [apply zz_of_u64_ok|apply demote_ok]. Qed.
Print Assumptions C01_constructors.
Theorem C01_add : forall a b, zz_ok a -> zz_ok b -> is_zz (zz_add false a b) (zval a + zval b).
Proof. intros. apply zz_add_ok; auto; left; reflexivity. Qed.
Print Assumptions C01_add.
Theorem C01_sub : forall a b, zz_ok a -> zz_ok b -> is_zz (zz_sub false a b) (zval a - zval b).
Proof. intros. apply zz_sub_ok; auto; left; reflexivity. Qed.
Print Assumptions C01_sub.
Theorem C01_mul : forall a b, zz_ok a -> zz_ok b -> is_zz (zz_mul a b) (zval a * zval b).
Proof. exact zz_mul_ok. Qed.
Print Assumptions C01_mul.
Theorem C01_neg_abs : forall a, zz_ok a ->
  (zz_ok (zz_neg a) /\ zval (zz_neg a) = - zval a) /\ (zz_ok (zz_abs a) /\ zval (zz_abs a) = Z.abs (zval a)).
Proof. intros a H. split; [apply zz_neg_ok|apply zz_abs_ok]; exact H. Qed.
Print Assumptions C01_neg_abs.
Theorem C01_pow_shift : forall a n, zz_ok a -> 0 <= n ->
  (zz_ok (zz_pow a n) /\ zval (zz_pow a n) = zval a ^ n) /\
  (zz_ok (zz_shl a n) /\ zval (zz_shl a n) = zval a * 2 ^ n) /\
  (zz_ok (zz_shr a n) /\ zval (zz_shr a n) = zval a / 2 ^ n).
Proof. intros a n H Hn. split; [apply zz_pow_ok; assumption|]. split; [apply zz_shl_ok|apply zz_shr_ok; assumption]. Qed.
Print Assumptions C01_pow_shift.
Theorem C01_compare : forall a b,
  (zz_eqb a b = true <-> zval a = zval b) /\ (zz_ltb a b = true <-> zval a < zval b) /\
  (zz_is_zero a = true <-> zval a = 0) /\ (zz_is_one a = true <-> zval a = 1) /\
  zz_is_odd a = Z.odd (zval a) /\ zz_sgn a = Z.sgn (zval a).
Proof.
  intros a b. rewrite zz_eqb_ok, zz_ltb_ok, zz_is_zero_ok, zz_is_one_ok, zz_is_odd_ok, zz_sgn_ok.
  rewrite !Z.eqb_eq, Z.ltb_lt. repeat split; auto.
Qed.
Print Assumptions C01_compare.
(** In-place forms: [d], [a], [b] are any objects, the same or different. *)
Theorem C01_in_place : forall m d a b, zz_ok (m d) -> zz_ok (m a) -> zz_ok (m b) ->
  stores (zz_add_assign false m d b) m d (zval (m d) + zval (m b)) /\
  stores (zz_sub_assign false m d b) m d (zval (m d) - zval (m b)) /\
  stores (zz_mul_assign m d b) m d (zval (m d) * zval (m b)) /\
  stores (zz_addmul m d a b) m d (zval (m d) + zval (m a) * zval (m b)) /\
  stores (zz_submul m d a b) m d (zval (m d) - zval (m a) * zval (m b)).
Proof.
  intros m d a b Hd Ha Hb. repeat split.
  - apply zz_add_assign_ok; auto. left; reflexivity.
  - apply zz_sub_assign_ok; auto. left; reflexivity.
  - apply zz_mul_assign_ok; auto.
  - apply zz_addmul_ok; auto.
  - apply zz_submul_ok; auto.
Qed.
Print Assumptions C01_in_place.
Example C01_example : zz_add false (Small (2 ^ 63 - 1)) (Small 1) = Ok (Big (2 ^ 63))
  /\ zz_sub false (Big (2 ^ 63)) (Small 1) = Ok (Small (2 ^ 63 - 1)) /\ zz_ok (Small (2 ^ 63 - 1)) /\ zz_ok (Big (2 ^ 63)).
Proof. cbn. repeat split; lia. Qed.
Example C01_alias_example : omap (fun m => m 0%nat) (zz_add_assign false (fun _ => Small (2 ^ 62)) 0 0) = Ok (Big (2 ^ 63)).
Proof. reflexivity. Qed.

(** C02.  With the C++ rule that negating INT64_MIN is undefined, the claim is false: INT64_MIN + INT64_MIN,
    2^63 - INT64_MIN, gcd(INT64_MIN, 1), INT64_MIN mod 7 ... *)
Theorem C02_no_ub_refuted : exists a b m, zz_ok a /\ zz_ok b /\ (forall x, zz_ok (m x)) /\
  zz_add true a a = UB /\ zz_sub true b a = UB /\ zz_gcd true a (Small 1) = UB /\ zz_fdiv_ui true a 7 = UB /\
  zz_add_assign true m 0%nat 1%nat = UB /\
  (* and even with wrap-around hardware *) (exists r, zz_fdiv_r (fun x => if Nat.eqb x 0 then Small (- 2 ^ 63) else Small (-1)) r 0%nat 1%nat = UB).
Proof.
  exists (Small (- 2 ^ 63)), (Big (2 ^ 63)), (fun _ => Small (- 2 ^ 63)).
  repeat split; try (cbn; lia); try reflexivity. exists 2%nat. reflexivity.
Qed.
Print Assumptions C02_no_ub_refuted.
(** ... but no operation on other values executes undefined behaviour. *)
Theorem C02_no_ub_partial : forall a b, zz_ok a -> zz_ok b -> zval a <> - 2 ^ 63 -> zval b <> - 2 ^ 63 ->
  is_zz (zz_add true a b) (zval a + zval b) /\ is_zz (zz_sub true a b) (zval a - zval b) /\
  is_zz (zz_mul a b) (zval a * zval b) /\ is_zz (zz_gcd true a b) (Z.gcd (zval a) (zval b)) /\
  is_zz (zz_lcm true a b) (Z.lcm (zval a) (zval b)) /\
  (forall d, 0 < d < 2 ^ 64 -> zz_fdiv_ui true a d = Ok (zval a mod d)) /\
  (forall m d e, zz_ok (m d) -> m e = b ->
     stores (zz_add_assign true m d e) m d (zval (m d) + zval b) /\ stores (zz_sub_assign true m d e) m d (zval (m d) - zval b)).
Proof.
  intros a b Ha Hb Na Nb. assert (Sa : negsafe true a) by (right; exact Na). assert (Sb : negsafe true b) by (right; exact Nb).
  split; [apply zz_add_ok; assumption|]. split; [apply zz_sub_ok; assumption|]. split; [apply zz_mul_ok; assumption|].
  split; [apply zz_gcd_ok; assumption|]. split; [apply zz_lcm_ok; assumption|].
  split; [intros d Hd; apply zz_fdiv_ui_ok; assumption|].
  intros m d e Hd <-. split; [apply zz_add_assign_ok; assumption|apply zz_sub_assign_ok; assumption].
Qed.
Print Assumptions C02_no_ub_partial.

(** C03. *)
Theorem C03_truncated_division : forall a b, zz_ok a -> zz_ok b ->
  (zval b = 0 -> zz_div a b = Throw /\ zz_mod a b = Throw) /\
  (zval b <> 0 -> exists q r, zz_div a b = Ok q /\ zz_mod a b = Ok r /\ zz_ok q /\ zz_ok r /\
     zval a = zval b * zval q + zval r /\ Z.abs (zval r) < Z.abs (zval b) /\ 0 <= zval r * zval a).
Proof.
  intros a b Ha Hb. pose proof (zz_div_ok a b Ha Hb) as D. pose proof (zz_mod_ok a b Ha Hb) as M.
  destruct (Z.eqb_spec (zval b) 0) as [E|E]; split; intros H; try contradiction; [auto|].
  destruct D as (q & -> & Oq & Vq), M as (r & -> & Or & Vr). exists q, r. rewrite Vq, Vr.
  repeat split; try assumption; [apply Z.quot_rem'|apply Z.rem_bound_abs, E|].
  apply Z.rem_sign_mul. exact E.
Qed.
Print Assumptions C03_truncated_division.
Theorem C03_floor_division : forall m q r a b, q <> r -> zz_ok (m a) -> zz_ok (m b) -> zval (m b) <> 0 ->
  stores (zz_fdiv_q m q a b) m q (zval (m a) / zval (m b)) /\
  stores2 (zz_fdiv_qr m q r a b) m q r (zval (m a) / zval (m b)) (zval (m a) mod zval (m b)) /\
  (~ (zval (m a) = - 2 ^ 63 /\ zval (m b) = -1) -> stores (zz_fdiv_r m r a b) m r (zval (m a) mod zval (m b))).
Proof.
  intros m q r a b Hqr Ha Hb Hz.
  pose proof (zz_fdiv_q_ok m q a b Ha Hb) as X. pose proof (zz_fdiv_qr_ok m q r a b Hqr Ha Hb) as Y.
  pose proof (zz_fdiv_r_ok m r a b Ha Hb) as W.
  destruct (Z.eqb_spec (zval (m b)) 0); [contradiction|]. auto.
Qed.
Print Assumptions C03_floor_division.
Theorem C03_floor_division_by_zero : forall m q r a b, q <> r -> zz_ok (m a) -> zz_ok (m b) -> zval (m b) = 0 ->
  zz_fdiv_q m q a b = Throw /\ zz_fdiv_qr m q r a b = Throw /\ zz_fdiv_r m r a b = Throw.
Proof.
  intros m q r a b Hqr Ha Hb Hz.
  pose proof (zz_fdiv_q_ok m q a b Ha Hb) as X. pose proof (zz_fdiv_qr_ok m q r a b Hqr Ha Hb) as Y.
  pose proof (zz_fdiv_r_ok m r a b Ha Hb) as W.
  rewrite Hz in *. cbn in *. split; [exact X|]. split; [exact Y|]. apply W. intros [_ C]. discriminate.
Qed.
Print Assumptions C03_floor_division_by_zero.
Theorem C03_gcd : forall a b, zz_ok a -> zz_ok b ->
  exists g, zz_gcd false a b = Ok g /\ zz_ok g /\ 0 <= zval g /\ (zval g | zval a) /\ (zval g | zval b) /\
    forall d, (d | zval a) -> (d | zval b) -> (d | zval g).
Proof.
  intros a b Ha Hb. destruct (zz_gcd_ok false a b) as (g & E & O & V); auto; try (left; reflexivity).
  exists g. rewrite V. split; [exact E|]. split; [exact O|]. split; [apply Z.gcd_nonneg|].
  split; [apply Z.gcd_divide_l|]. split; [apply Z.gcd_divide_r|]. apply Z.gcd_greatest.
Qed.
Print Assumptions C03_gcd.
Theorem C03_lcm : forall a b, zz_ok a -> zz_ok b ->
  exists l, zz_lcm false a b = Ok l /\ zz_ok l /\ 0 <= zval l /\ (zval a | zval l) /\ (zval b | zval l) /\
    forall d, (zval a | d) -> (zval b | d) -> (zval l | d).
Proof.
  intros a b Ha Hb. destruct (zz_lcm_ok false a b Ha Hb) as (g & E & O & V).
  exists g. rewrite V. split; [exact E|]. split; [exact O|]. split; [apply Z.lcm_nonneg|].
  split; [apply Z.divide_lcm_l|]. split; [apply Z.divide_lcm_r|]. apply Z.lcm_least.
Qed.
Print Assumptions C03_lcm.
Theorem C03_residue : forall a d, zz_ok a -> 0 < d < 2 ^ 64 -> zz_fdiv_ui false a d = Ok (zval a mod d).
Proof. intros. apply zz_fdiv_ui_ok; auto. left; reflexivity. Qed.
Print Assumptions C03_residue.
Example C03_example : zz_div (Small (- 2 ^ 63)) (Small (-1)) = Ok (Big (2 ^ 63)) /\ zz_div (Small (-7)) (Small 2) = Ok (Small (-3))
  /\ zz_gcd false (Small (- 2 ^ 63)) (Small 12) = Ok (Small 4) /\ zz_lcm false (Small (2 ^ 62)) (Small 3) = Ok (Big (3 * 2 ^ 62)).
Proof. repeat split; vm_compute; reflexivity. Qed.

(** C04. *)
Theorem C04_field_operations : forall a b, qq_ok a -> qq_ok b ->
  (qq_ok (qq_add a b) /\ (qval (qq_add a b) == qval a + qval b)%Q) /\
  (qq_ok (qq_sub a b) /\ (qval (qq_sub a b) == qval a - qval b)%Q) /\
  (qq_ok (qq_mul a b) /\ (qval (qq_mul a b) == qval a * qval b)%Q) /\
  (qq_ok (qq_neg a) /\ (qval (qq_neg a) == - qval a)%Q) /\
  (qq_ok (qq_abs a) /\ (qval (qq_abs a) == Qabs (qval a))%Q) /\
  (forall n, 0 <= n -> qq_ok (qq_pow a n) /\ (qval (qq_pow a n) == qval a ^ n)%Q).
Proof.
  intros a b Ha Hb. split; [apply qq_add_ok; assumption|]. split; [apply qq_sub_ok; assumption|].
  split; [apply qq_mul_ok; assumption|]. split; [apply qq_neg_ok; assumption|].
  split; [apply qq_abs_ok; assumption|]. intros n Hn. apply qq_pow_ok; assumption.
Qed.
Print Assumptions C04_field_operations.
Theorem C04_division : forall a b, qq_ok a -> qq_ok b ->
  ((qval b == 0)%Q -> qq_div a b = Throw) /\
  (~ (qval b == 0)%Q -> exists r, qq_div a b = Ok r /\ qq_ok r /\ (qval r == qval a / qval b)%Q).
Proof.
  intros a b Ha Hb. pose proof (qq_div_ok a b Ha Hb) as X. pose proof (qq_is_zero_ok b) as Y.
  destruct (qq_is_zero b); split; intros H; auto.
  - exfalso. apply H, Y. reflexivity.
  - apply Y in H. discriminate.
Qed.
Print Assumptions C04_division.
Theorem C04_construction : forall n d,
  (d = 0 -> qq_make n d = Throw) /\
  (d <> 0 -> exists r, qq_make n d = Ok r /\ qq_ok r /\ (qval r * inject_Z d == inject_Z n)%Q) /\
  (qq_ok (qq_int n) /\ (qval (qq_int n) == inject_Z n)%Q).
Proof.
  intros n d. split; [intros ->; reflexivity|]. split; [apply qq_make_ok|apply qq_int_ok].
Qed.
Print Assumptions C04_construction.
(** C43.  Reading a rational from the text "num/den": fine for a non-zero denominator, but "1/0" is accepted
    and yields a value with denominator zero. *)
Theorem C43_read_partial : forall n d, d <> 0 -> qq_ok (qq_read n d) /\ (qval (qq_read n d) * inject_Z d == inject_Z n)%Q.
Proof.
  intros n d Hd. destruct (qq_make_ok n d Hd) as (r & E & H1 & H2). unfold qq_make in E.
  destruct (Z.eqb_spec d 0); [contradiction|]. injection E as <-. split; assumption.
Qed.
Print Assumptions C43_read_partial.
Theorem C43_read_refuted : exists n d, qden (qq_read n d) = 0 /\ ~ qq_ok (qq_read n d).
Proof. exists 1, 0. split; [reflexivity|]. intros [H _]. cbn in H. lia. Qed.
Print Assumptions C43_read_refuted.
Example C43_example : qq_read 6 (-4) = Qq (-3) 2.
Proof. reflexivity. Qed.
Theorem C04_comparison : forall a b, qq_ok a -> qq_ok b ->
  (qq_eqb a b = true <-> (qval a == qval b)%Q) /\ (qq_ltb a b = true <-> (qval a < qval b)%Q) /\
  (qq_is_zero a = true <-> (qval a == 0)%Q) /\ ((qval a == qval b)%Q -> a = b).
Proof.
  intros a b Ha Hb. split; [apply qq_eqb_ok; assumption|]. split; [apply qq_ltb_ok; assumption|].
  split; [apply qq_is_zero_ok|apply qq_unique; assumption].
Qed.
Print Assumptions C04_comparison.
Theorem C04_field : field_ok QQc.
Proof. exact QQc_field. Qed.
Print Assumptions C04_field.
Example C04_example : qq_add (Qq 1 6) (Qq 1 3) = Qq 1 2 /\ qq_make 4 (-6) = Ok (Qq (-2) 3) /\ qq_ok (Qq 1 6).
Proof. repeat split; reflexivity. Qed.

(** C05. *)
Theorem C05_ring_operations : forall p a b, modulus p -> residue p a -> residue p b ->
  zp_add p a b = (a + b) mod p /\ zp_sub p a b = (a - b) mod p /\ zp_neg p a = (- a) mod p /\
  zp_mul p a b = (a * b) mod p.
Proof.
  intros p a b Hp Ha Hb. split; [apply zp_add_ok; assumption|]. split; [apply zp_sub_ok; assumption|].
  split; [apply zp_neg_ok; assumption|apply zp_mul_ok; assumption].
Qed.
Print Assumptions C05_ring_operations.
(** Barrett multiplication is exact even when the second factor is not reduced. *)
Theorem C05_barrett : forall p a b, modulus p -> residue p a -> 0 <= b < 2 ^ 64 -> nmod_mul p a b = (a * b) mod p.
Proof. exact nmod_mul_ok. Qed.
Print Assumptions C05_barrett.
Theorem C05_construction : forall p i, modulus p ->
  (- 2 ^ 63 <= i < 2 ^ 63 -> zp_of_i64 i p = i mod p) /\ (0 <= i < 2 ^ 64 -> zp_of_u64 i p = i mod p) /\
  (forall z, zz_ok z -> zz_fdiv_ui false z p = Ok (zval z mod p)).
Proof.
  intros p i Hp. split; [apply zp_of_i64_ok, Hp|]. split; [reflexivity|]. intros z Hz. apply C03_residue; [exact Hz|].
  unfold modulus in Hp. lia.
Qed.
Print Assumptions C05_construction.
Theorem C05_power : forall p z i, modulus p -> residue p z -> 0 <= i < 2 ^ 63 -> zp_pow p z i = Ok ((z ^ i) mod p).
Proof. exact zp_pow_ok. Qed.
Print Assumptions C05_power.
(** Inverses exist exactly for residues coprime to the modulus; the loop terminates. *)
Theorem C05_inverse : forall p a, modulus p -> 0 < a < p -> Z.gcd a p = 1 ->
  exists r, zp_inv p a = Ok r /\ residue p r /\ (r * a) mod p = 1.
Proof. exact inv_prime_ok. Qed.
Print Assumptions C05_inverse.
Theorem C05_division : forall p a b, modulus p -> prime p -> residue p a -> residue p b -> b <> 0 ->
  exists r, zp_div p a b = Ok r /\ residue p r /\ (r * b) mod p = a /\
    forall r', residue p r' -> (r' * b) mod p = a -> r' = r.
Proof.
  intros p a b Hp Pr Ha Hb Nb. destruct (zp_div_ok p Hp a b Pr Ha Hb Nb) as (r & E & R & V).
  exists r. split; [exact E|]. split; [exact R|]. split; [exact V|]. intros r' R' V'.
  unfold residue, modulus in *.
  assert (D : (p | (r' - r) * b)).
  { apply Z.mod_divide; [lia|]. rewrite Z.mul_sub_distr_r, Zminus_mod, V, V', Z.sub_diag. apply Z.mod_0_l. lia. }
  apply prime_mult in D; [|exact Pr]. destruct D as [D|D].
  - apply Z.divide_abs_r in D. destruct (Z.eq_dec r' r) as [|N]; [assumption|]. apply Z.divide_pos_le in D; lia.
  - apply Z.divide_pos_le in D; lia.
Qed.
Print Assumptions C05_division.
Theorem C05_field : forall p (Hp : modulus p), prime p -> field_ok (Zpc p Hp).
Proof. exact Zpc_field. Qed.
Print Assumptions C05_field.
Example C05_example : zp_mul 18446744073709551557 18446744073709551556 18446744073709551555 = 2
  /\ zp_div 7 3 5 = Ok 2 /\ zp_pow 1000000007 2 100 = Ok (2 ^ 100 mod 1000000007) /\ modulus 18446744073709551557.
Proof. repeat split; vm_compute; reflexivity || discriminate. Qed.
