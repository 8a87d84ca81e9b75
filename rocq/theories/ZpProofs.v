(** * Zp computes exactly modulo p; Zp as a coefficient field. *)
From Coq Require Import Znumtheory Zpow_facts Eqdep_dec Ring_theory.
From Verif Require Import Prelude Coef Zp NumSpec.
Local Open Scope Z_scope.

Lemma wrap64_id x : 0 <= x < 2 ^ 64 -> wrap64 x = x.
Proof. intros H. unfold wrap64, two64. apply Z.mod_small, H. Qed.
Lemma wrap128_id x : 0 <= x < 2 ^ 128 -> wrap128 x = x.
Proof. intros H. unfold wrap128. apply Z.mod_small, H. Qed.

Section Norm.
Variable p : Z.
Hypothesis Hp : modulus p.
Let s := norm_of p.
Lemma norm_range : 0 <= s <= 63.
Proof.
  unfold s, norm_of. unfold modulus in Hp. pose proof (Z.log2_nonneg p).
  assert (Z.log2 p < 64) by (apply Z.log2_lt_pow2; lia). lia.
Qed.
Lemma pn_range : 2 ^ 63 <= p * 2 ^ s < 2 ^ 64.
Proof.
  pose proof norm_range. unfold modulus in Hp. destruct (Z.log2_spec p ltac:(lia)) as [A B].
  assert (E : 2 ^ 63 = 2 ^ (Z.log2 p) * 2 ^ s).
  { rewrite <- Z.pow_add_r; [f_equal; unfold s, norm_of; lia|apply Z.log2_nonneg|lia]. }
  assert (E' : 2 ^ 64 = 2 ^ (Z.succ (Z.log2 p)) * 2 ^ s).
  { rewrite <- Z.pow_add_r; [f_equal; unfold s, norm_of; lia|pose proof (Z.log2_nonneg p); lia|lia]. }
  assert (0 < 2 ^ s) by (apply Z.pow_pos_nonneg; lia). split; nia.
Qed.
Lemma pn_eq : wrap64 (Z.shiftl p s) = p * 2 ^ s.
Proof. pose proof norm_range. pose proof pn_range. rewrite Z.shiftl_mul_pow2 by lia. apply wrap64_id. lia. Qed.
End Norm.

Lemma lor_low h l : 0 <= h -> 0 <= l < 2 ^ 64 -> Z.lor (Z.shiftl h 64) l = h * 2 ^ 64 + l.
Proof.
  intros Hh Hl. assert (L : Z.land (Z.shiftl h 64) l = 0).
  2: { rewrite <- Z.lxor_lor, <- Z.add_nocarry_lxor by exact L. rewrite Z.shiftl_mul_pow2 by lia. reflexivity. }
  apply Z.bits_inj_iff. intros n. rewrite Z.land_spec, Z.bits_0. destruct (Z.lt_ge_cases n 0); [rewrite Z.testbit_neg_r; auto|].
  rewrite Z.shiftl_spec by lia. destruct (Z.lt_ge_cases n 64).
  - rewrite Z.testbit_neg_r by lia. reflexivity.
  - destruct (Z.eq_dec l 0) as [->|]; [rewrite Z.bits_0, andb_false_r; reflexivity|].
      rewrite (Z.bits_above_log2 l n); [apply andb_false_r|lia|]. apply Z.log2_lt_pow2; [lia|].
      apply Z.lt_le_trans with (2 ^ 64); [lia|]. apply Z.pow_le_mono_r; lia.
Qed.

(** The precomputed inverse of a normalised d: (2^64 + v) d = 2^128 - k, 1 <= k <= d. *)
Lemma preinvert_spec d : 2 ^ 63 <= d < 2 ^ 64 ->
  0 <= preinvert_limb d < 2 ^ 64 /\ exists k, 1 <= k <= d /\ (2 ^ 64 + preinvert_limb d) * d = 2 ^ 128 - k.
Proof.
  intros Hd. unfold preinvert_limb, two64. cbv zeta.
  rewrite wrap128_id; [|rewrite Z.shiftl_mul_pow2 by lia; nia].
  rewrite lor_low by lia.
  replace ((2 ^ 64 - 1 - d) * 2 ^ 64 + (2 ^ 64 - 1)) with (2 ^ 128 - 1 - d * 2 ^ 64) by ring.
  set (N := 2 ^ 128 - 1 - d * 2 ^ 64).
  pose proof (Z.div_mod N d ltac:(lia)) as E. pose proof (Z.mod_pos_bound N d ltac:(lia)) as B.
  assert (R : 0 <= N / d < 2 ^ 64).
  { split; [apply Z.div_pos; unfold N; lia|]. apply Z.div_lt_upper_bound; [lia|]. unfold N. nia. }
  rewrite wrap64_id by exact R. split; [exact R|]. exists (1 + N mod d). split; [lia|]. unfold N in *. nia.
Qed.

(** Division of a two-word number by a normalised word, Moeller and Granlund's algorithm. *)
Lemma mg_core (b d v k u1 u0 q1 q0 : Z) : b = 2 ^ 64 -> 2 ^ 63 <= d < b -> 0 <= v < b -> 1 <= k <= d ->
  (b + v) * d = b * b - k -> 0 <= u1 < d -> 0 <= u0 < b -> 0 <= q0 < b ->
  q1 * b + q0 = (b + v) * u1 + u0 ->
  let rt := u1 * b + u0 - (q1 + 1) * d in
  - d <= rt /\ q0 - b < rt /\ rt < Z.max (b - d) q0.
Proof.
  intros Hb Hd Hv Hk Ek H1 H0 Hq Eq rt.
  assert (X : b * rt = u1 * k + u0 * (b - d) + q0 * d - b * d).
  { unfold rt. assert (q1 * b = (b + v) * u1 + u0 - q0) by lia.
    transitivity (u1 * (b * b) + u0 * b - d * (q1 * b) - b * d); [ring|]. rewrite H.
    replace (b * b) with ((b + v) * d + k) by lia. ring. }
  assert (P1 : 0 <= u1 * k) by nia. assert (P2 : 0 <= u0 * (b - d)) by nia.
  assert (L : b * rt >= q0 * d - b * d) by lia.
  split; [nia|]. split.
  - (* rt > q0 - b : b*rt >= -(b-q0) d > -(b-q0) b *)
    assert ((b - q0) * d < (b - q0) * b) by nia. nia.
  - assert (U1 : u1 * k <= (d - 1) * d) by nia. assert (U0 : u0 * (b - d) <= (b - 1) * (b - d)) by nia.
    assert (U : b * rt < (b - d) * (b - d) + q0 * d) by nia.
    set (M := Z.max (b - d) q0). assert (MM : b - d <= M /\ q0 <= M) by (unfold M; lia). clearbody M.
    assert ((b - d) * (b - d) <= (b - d) * M) by (apply Z.mul_le_mono_nonneg_l; lia).
    assert (q0 * d <= M * d) by (apply Z.mul_le_mono_nonneg_r; lia).
    assert (b * rt < b * M) by lia. apply (Z.mul_lt_mono_pos_l b); lia.
Qed.

Lemma mod_shift x m : wrap64 (x + m * 2 ^ 64) = wrap64 x.
Proof. unfold wrap64, two64. apply Z_mod_plus_full. Qed.
Lemma wrap64_l x y : wrap64 (wrap64 x + y) = wrap64 (x + y).
Proof. unfold wrap64. apply Zplus_mod_idemp_l. Qed.
Lemma wrap64_r x y : wrap64 (x + wrap64 y) = wrap64 (x + y).
Proof. unfold wrap64. apply Zplus_mod_idemp_r. Qed.
Lemma wrap64_sub x y : wrap64 (x - wrap64 y) = wrap64 (x - y).
Proof. unfold wrap64. apply Zminus_mod_idemp_r. Qed.
Lemma wrap64_mul_l x y : wrap64 (wrap64 x * y) = wrap64 (x * y).
Proof. unfold wrap64. apply Zmult_mod_idemp_l. Qed.

Theorem nmod_mul_ok p a b : modulus p -> residue p a -> 0 <= b < 2 ^ 64 -> nmod_mul p a b = (a * b) mod p.
Proof.
  intros Hp Ha Hb. unfold nmod_mul. rewrite pn_eq by exact Hp. cbv zeta.
  pose proof (norm_range p Hp) as Hs. pose proof (pn_range p Hp) as Hd. unfold ninv_of. rewrite pn_eq by exact Hp.
  set (s := norm_of p) in *. unfold residue, modulus in *.
  assert (Ps : 0 < 2 ^ s) by (apply Z.pow_pos_nonneg; lia).
  set (d := p * 2 ^ s) in *.
  destruct (preinvert_spec d Hd) as [Hv (k & Hk & Ek)]. set (v := preinvert_limb d) in *.
  rewrite (Z.shiftl_mul_pow2 a) by lia.
  assert (Has : 0 <= a * 2 ^ s < d) by (unfold d; nia).
  rewrite (wrap64_id (a * 2 ^ s)) by lia. set (as_ := a * 2 ^ s) in *.
  assert (Hprod : 0 <= as_ * b < d * 2 ^ 64) by nia.
  rewrite (wrap128_id (as_ * b)) by (change (2 ^ 128) with (2 ^ 64 * 2 ^ 64); nia).
  set (P := as_ * b) in *. rewrite (Z.shiftr_div_pow2 P) by lia.
  assert (EP : P = P / 2 ^ 64 * 2 ^ 64 + P mod 2 ^ 64) by (rewrite Z.mul_comm; apply Z.div_mod; lia).
  assert (Hhi : 0 <= P / 2 ^ 64 < d) by (split; [apply Z.div_pos; lia|apply Z.div_lt_upper_bound; lia]).
  pose proof (Z.mod_pos_bound P (2 ^ 64) ltac:(lia)) as Hlo.
  rewrite (wrap64_id (P / 2 ^ 64)) by lia. change (wrap64 P) with (P mod 2 ^ 64).
  set (hi := P / 2 ^ 64) in *. set (lo := P mod 2 ^ 64) in *.
  assert (Hqm : 0 <= hi * v < 2 ^ 128) by (change (2 ^ 128) with (2 ^ 64 * 2 ^ 64); nia).
  rewrite (wrap128_id (hi * v)) by exact Hqm. rewrite (Z.shiftr_div_pow2 (hi * v)) by lia.
  set (QM := hi * v) in *.
  assert (EQ : QM = QM / 2 ^ 64 * 2 ^ 64 + QM mod 2 ^ 64) by (rewrite Z.mul_comm; apply Z.div_mod; lia).
  pose proof (Z.mod_pos_bound QM (2 ^ 64) ltac:(lia)) as Hq0.
  assert (Hq1 : 0 <= QM / 2 ^ 64 < 2 ^ 64) by (split; [apply Z.div_pos; lia|apply Z.div_lt_upper_bound; [lia|]; exact (proj2 Hqm)]).
  rewrite (wrap64_id (QM / 2 ^ 64)) by lia. change (wrap64 QM) with (QM mod 2 ^ 64).
  set (qh := QM / 2 ^ 64) in *. set (ql := QM mod 2 ^ 64) in *.
  (* the double word q1,q0 *)
  set (q0 := wrap64 (ql + lo)). set (cy := if q0 <? lo then 1 else 0).
  assert (Eq0 : ql + lo = cy * 2 ^ 64 + q0 /\ 0 <= q0 < 2 ^ 64).
  { unfold cy, q0, wrap64, two64. pose proof (Z.mod_pos_bound (ql + lo) (2 ^ 64) ltac:(lia)).
    split; [|lia]. destruct (Z.lt_ge_cases (ql + lo) (2 ^ 64)) as [L|L].
    - rewrite (Z.mod_small (ql + lo)) by lia. destruct (Z.ltb_spec (ql + lo) lo); lia.
    - assert (E : (ql + lo) mod 2 ^ 64 = ql + lo - 2 ^ 64).
      { replace (ql + lo) with (ql + lo - 2 ^ 64 + 1 * 2 ^ 64) at 1 by lia. rewrite Z_mod_plus_full. apply Z.mod_small. lia. }
      rewrite E. destruct (Z.ltb_spec (ql + lo - 2 ^ 64) lo); lia. }
  destruct Eq0 as [Eq0 Bq0]. clearbody q0 cy. 
  assert (Eqq : (qh + (hi + cy)) * 2 ^ 64 + q0 = (2 ^ 64 + v) * hi + lo) by (unfold QM in *; lia).
  destruct (mg_core (2 ^ 64) d v k hi lo (qh + (hi + cy)) q0 eq_refl Hd Hv Hk Ek Hhi Hlo Bq0 Eqq) as (M1 & M2 & M3).
  rewrite (wrap64_r qh (hi + cy)). rewrite wrap64_l, wrap64_mul_l, wrap64_sub.
  set (Q := qh + (hi + cy)) in *.
  set (rt := hi * 2 ^ 64 + lo - (Q + 1) * d) in *.
  replace (wrap64 (lo - (Q + 1) * d)) with (wrap64 rt).
  2: { unfold rt. replace (hi * 2 ^ 64 + lo - (Q + 1) * d) with (lo - (Q + 1) * d + hi * 2 ^ 64) by ring. apply mod_shift. }
  assert (Key : forall r3, r3 = P mod d -> Z.shiftr r3 s = (a * b) mod p).
  { intros r3 ->. rewrite Z.shiftr_div_pow2 by lia. unfold P, as_, d.
    replace (a * 2 ^ s * b) with (a * b * 2 ^ s) by ring. rewrite Zmult_mod_distr_r. apply Z.div_mul. lia. }
  assert (EPm : forall r3 n, 0 <= r3 < d -> r3 = P + n * d -> r3 = P mod d).
  { intros r3 n Hr E. rewrite E in *. symmetry. rewrite <- (Z_mod_plus_full P n d). apply Z.mod_small. exact Hr. }
  apply Key.
  assert (EPr : rt = P + (- (Q + 1)) * d) by (unfold rt; lia).
  destruct (Z.lt_ge_cases rt 0) as [Neg|Pos].
  - assert (W : wrap64 rt = rt + 2 ^ 64).
    { rewrite <- (mod_shift rt 1). rewrite wrap64_id; lia. }
    rewrite W. destruct (Z.ltb_spec q0 (rt + 2 ^ 64)); [|lia].
    assert (W2 : wrap64 (rt + 2 ^ 64 + d) = rt + d).
    { replace (rt + 2 ^ 64 + d) with (rt + d + 1 * 2 ^ 64) by ring. rewrite mod_shift. apply wrap64_id. lia. }
    rewrite W2. destruct (Z.leb_spec d (rt + d)); [lia|].
    apply (EPm _ (- Q)); [lia|]. lia.
  - rewrite (wrap64_id rt) by lia. destruct (Z.ltb_spec q0 rt) as [G|G].
    + rewrite (wrap64_id (rt + d)) by lia. destruct (Z.leb_spec d (rt + d)); [|lia].
      rewrite wrap64_id by lia. apply (EPm _ (- (Q + 1))); lia.
    + destruct (Z.leb_spec d rt).
      * rewrite wrap64_id by lia. apply (EPm _ (- (Q + 2))); lia.
      * apply (EPm _ (- (Q + 1))); lia.
Qed.

(** Inverse *)
Lemma mod_half x y : 0 < y <= x -> 2 * (x mod y) < x.
Proof.
  intros H. pose proof (Z.mod_pos_bound x y ltac:(lia)). pose proof (Z.div_mod x y ltac:(lia)).
  assert (1 <= x / y) by (apply Z.div_le_lower_bound; lia). nia.
Qed.
Lemma div_u64 a b : 0 < b <= a -> a < 2 ^ 64 -> 0 <= a / b < 2 ^ 64.
Proof. intros Hb Ha. split; [apply Z.div_pos; lia|]. apply Z.div_lt_upper_bound; [lia|]. nia. Qed.
Lemma inv_step p s1 s2 q : modulus p -> residue p s1 -> residue p s2 -> 0 <= q < 2 ^ 64 ->
  let sq := wrap64 (wrap128 (s2 * q) mod p) in
  let s3 := if sq <=? s1 then wrap64 (s1 - sq) else wrap64 (wrap64 (p - sq) + s1) in
  residue p s3 /\ (s3 mod p = (s1 - s2 * q) mod p).
Proof.
  intros Hp H1 H2 Hq. cbv zeta. unfold modulus, residue in *.
  rewrite wrap128_id by (change (2 ^ 128) with (2 ^ 64 * 2 ^ 64); nia).
  pose proof (Z.mod_pos_bound (s2 * q) p ltac:(lia)) as B. rewrite (wrap64_id (s2 * q mod p)) by lia.
  set (sq := s2 * q mod p) in *.
  assert (E : (s1 - sq) mod p = (s1 - s2 * q) mod p) by (unfold sq; apply Zminus_mod_idemp_r).
  destruct (Z.leb_spec sq s1).
  - rewrite wrap64_id by lia. split; [lia|exact E].
  - rewrite (wrap64_id (p - sq)) by lia. rewrite wrap64_id by lia. split; [lia|].
    rewrite <- E. replace (p - sq + s1) with (s1 - sq + 1 * p) by ring. apply Z_mod_plus_full.
Qed.
Lemma inv_loop_ok p i : modulus p -> forall n a b s1 s2 fuel,
  0 < b <= a -> a < 2 ^ 64 -> b < 2 ^ Z.of_nat n -> (2 * n + 1 <= fuel)%nat ->
  residue p s1 -> residue p s2 -> (s1 * i) mod p = a mod p -> (s2 * i) mod p = b mod p ->
  exists r, inv_loop fuel p a b s1 s2 = Ok r /\ residue p r /\ (r * i) mod p = Z.gcd a b mod p.
Proof.
  intros Hp.
  assert (Step : forall a b s1 s2, 0 < b <= a -> a < 2 ^ 64 -> residue p s1 -> residue p s2 ->
    (s1 * i) mod p = a mod p -> (s2 * i) mod p = b mod p ->
    let q := a / b in
    let sq := wrap64 (wrap128 (s2 * q) mod p) in
    let s3 := if sq <=? s1 then wrap64 (s1 - sq) else wrap64 (wrap64 (p - sq) + s1) in
    residue p s3 /\ (s3 * i) mod p = (a mod b) mod p).
  { intros a b s1 s2 Hb Ha R1 R2 E1 E2 q.
    pose proof (div_u64 a b Hb Ha : 0 <= q < 2 ^ 64) as Hq.
    destruct (inv_step p s1 s2 q Hp R1 R2 Hq) as [A B]. cbv zeta in *. split; [exact A|].
    rewrite <- Zmult_mod_idemp_l, B, Zmult_mod_idemp_l.
    replace ((s1 - s2 * q) * i) with (s1 * i - q * (s2 * i)) by ring.
    rewrite Zminus_mod, E1, <- Zmult_mod_idemp_r, E2, Zmult_mod_idemp_r, <- Zminus_mod. f_equal.
    unfold q. clear - Hb. pose proof (Z.div_mod a b ltac:(lia)). lia. }
  induction n as [|n IH]; intros a b s1 s2 fuel Hb Ha Hn Hf R1 R2 E1 E2; [cbn in Hn; lia|].
  destruct fuel as [|[|[|f]]]; [exfalso; clear - Hf; lia..|]. cbn [inv_loop].
  assert (G : Z.gcd a b = Z.gcd b (a mod b)) by (rewrite (Z.gcd_comm b), Z.gcd_mod by lia; apply Z.gcd_comm).
  destruct (Z.eqb_spec b 0); [lia|].
  pose proof (Z.mod_pos_bound a b ltac:(lia)) as Bc.
  destruct (Z.eqb_spec (a mod b) 0) as [C0|C0].
  { exists s2. repeat split; try assumption; try apply R2. rewrite G, C0, Z.gcd_0_r, Z.abs_eq by lia. exact E2. }
  cbv zeta. destruct (Step a b s1 s2 Hb Ha R1 R2 E1 E2) as [R3 E3]. cbv zeta in R3, E3.
  remember (if _ <=? s1 then _ else _) as s3. clear Heqs3.
  destruct (Z.eqb_spec (a mod b) 0); [lia|]. set (c := a mod b) in *.
  assert (G2 : Z.gcd b c = Z.gcd c (b mod c)) by (rewrite (Z.gcd_comm c), Z.gcd_mod by lia; apply Z.gcd_comm).
  pose proof (Z.mod_pos_bound b c ltac:(lia)) as Bd.
  destruct (Z.eqb_spec (b mod c) 0) as [D0|D0].
  { exists s3. repeat split; try assumption; try apply R3. rewrite G, G2, D0, Z.gcd_0_r, Z.abs_eq by lia. exact E3. }
  assert (Hc : 0 < c <= b) by (clear - Bc C0; lia).
  assert (Hb64 : b < 2 ^ 64) by (clear - Hb Ha; lia).
  pose proof (mod_half b c Hc) as Hh.
  assert (Hd : 0 < b mod c <= c) by (clear - Bd D0; lia).
  assert (Hc64 : c < 2 ^ 64) by (clear - Hc Hb64; lia).
  assert (Hdn : b mod c < 2 ^ Z.of_nat n).
  { rewrite Nat2Z.inj_succ, Z.pow_succ_r in Hn by (clear; lia). clear - Hn Hh. lia. }
  assert (Hf' : (2 * n + 1 <= S f)%nat) by (clear - Hf; lia).
  destruct (Step b c s2 s3 Hc Hb64 R2 R3 E2 E3) as [R4 E4]. cbv zeta in R4, E4.
  remember (if _ <=? s2 then _ else _) as s4. clear Heqs4.
  destruct (IH c (b mod c) s3 s4 (S f) Hd Hc64 Hdn Hf' R3 R4 E3 E4) as (r & Er & Rr & Vr).
  cbn [inv_loop] in Er. destruct (Z.eqb_spec (b mod c) 0) as [X|_] in Er; [contradiction|]. exists r. split; [exact Er|]. split; [exact Rr|]. rewrite Vr, G, G2. reflexivity.
Qed.
Theorem inv_prime_ok p i : modulus p -> 0 < i < p -> Z.gcd i p = 1 ->
  exists r, inv_prime i p = Ok r /\ residue p r /\ (r * i) mod p = 1.
Proof.
  intros Hp Hi Hg. unfold modulus in Hp. unfold inv_prime.
  destruct (inv_loop_ok p i Hp 64 p i 0 1 130) as (r & E & R & V); try (unfold residue; lia).
  { rewrite Z.mul_0_l, Z.mod_0_l, Z.mod_same by lia. reflexivity. }
  { rewrite Z.mul_1_l. reflexivity. }
  exists r. split; [exact E|]. split; [exact R|]. rewrite V, Z.gcd_comm, Hg. apply Z.mod_small. lia.
Qed.
Lemma inv_prime_zero p : inv_prime 0 p = UB.
Proof. reflexivity. Qed.

Lemma zp_of_i64_ok p i : modulus p -> - 2 ^ 63 <= i < 2 ^ 63 -> zp_of_i64 i p = i mod p.
Proof.
  intros Hp Hi. unfold zp_of_i64, modulus in *. cbv zeta. destruct (Z.leb_spec 0 i).
  - destruct (Z.eqb_spec (i mod p) 0) as [->|E]; [reflexivity|]. cbn [orb]. destruct (Z.ltb_spec 0 i); [reflexivity|].
    assert (i = 0) as -> by lia. rewrite Z.mod_0_l in E by lia. contradiction.
  - assert (W : wrap64 (- wrap64 i) = - i).
    { unfold wrap64, two64. rewrite <- (Z.sub_0_l (i mod _)), Zminus_mod_idemp_r, Z.sub_0_l. apply Z.mod_small. lia. }
    rewrite W. pose proof (Z.mod_pos_bound (- i) p ltac:(lia)).
    destruct (Z.eqb_spec (- i mod p) 0) as [E|E]; cbn [orb].
    + rewrite E. symmetry. pose proof (Z_mod_zero_opp_full (- i) p E) as X. rewrite Z.opp_involutive in X. exact X.
    + destruct (Z.ltb_spec 0 i); [lia|]. pose proof (Z_mod_nz_opp_full (- i) p E) as X. rewrite Z.opp_involutive in X. lia.
Qed.
Lemma zp_neg_ok p a : modulus p -> residue p a -> zp_neg p a = (- a) mod p.
Proof.
  unfold modulus, residue, zp_neg. intros Hp Ha. destruct (Z.eqb_spec a 0) as [->|]; [rewrite Z.mod_0_l; lia|].
  rewrite wrap64_id by lia. rewrite Z_mod_nz_opp_full; rewrite Z.mod_small; lia.
Qed.
Lemma zp_add_ok p a b : modulus p -> residue p a -> residue p b -> zp_add p a b = (a + b) mod p.
Proof.
  unfold modulus, residue, zp_add. intros Hp Ha Hb. cbv zeta. rewrite (wrap64_id (p - a)) by lia.
  destruct (Z.ltb_spec b (p - a)).
  - rewrite wrap64_id by lia. symmetry. apply Z.mod_small. lia.
  - rewrite wrap64_id by lia. apply Z.mod_unique with 1; lia.
Qed.
Lemma zp_sub_ok p a b : modulus p -> residue p a -> residue p b -> zp_sub p a b = (a - b) mod p.
Proof.
  unfold modulus, residue, zp_sub. intros Hp Ha Hb. destruct (Z.leb_spec b a).
  - rewrite wrap64_id by lia. symmetry. apply Z.mod_small. lia.
  - rewrite (wrap64_id (p - b)) by lia. rewrite wrap64_id by lia. apply Z.mod_unique with (-1); lia.
Qed.
Lemma zp_mul_ok p a b : modulus p -> residue p a -> residue p b -> zp_mul p a b = (a * b) mod p.
Proof. intros Hp Ha Hb. unfold modulus, residue in *. apply nmod_mul_ok; unfold modulus, residue; lia. Qed.

Lemma zp_pow_loop_ok p : modulus p -> forall n fuel o z i, (n + 1 <= fuel)%nat -> residue p o -> residue p z ->
  0 <= i < 2 ^ Z.of_nat n -> zp_pow_loop fuel p o z i = Ok ((o * z ^ i) mod p).
Proof.
  intros Hp. induction n as [|n IH]; intros fuel o z i Hf Ho Hz Hi; (destruct fuel as [|f]; [lia|]); cbn [zp_pow_loop].
  - assert (i = 0) as -> by (cbn in Hi; lia). cbn. unfold residue in Ho. rewrite Z.mul_1_r, Z.mod_small by lia. reflexivity.
  - destruct (Z.ltb_spec 0 i) as [P|P].
    2: { assert (i = 0) as -> by lia. unfold residue in Ho. rewrite Z.pow_0_r, Z.mul_1_r, Z.mod_small by lia. reflexivity. }
    cbv zeta. rewrite Nat2Z.inj_succ, Z.pow_succ_r in Hi by lia.
    assert (Hi2 : 0 <= i / 2 < 2 ^ Z.of_nat n) by (split; [apply Z.div_pos; lia|apply Z.div_lt_upper_bound; lia]).
    assert (pp : 0 < p) by (unfold modulus in Hp; lia).
    assert (Rm : forall x, residue p (x mod p)) by (intros x; apply Z.mod_pos_bound; exact pp).
    assert (Ei : i = 2 * (i / 2) + Z.rem i 2) by (rewrite Z.rem_mod_nonneg by lia; apply Z.div_mod; lia).
    assert (Br : Z.rem i 2 = 0 \/ Z.rem i 2 = 1) by (rewrite Z.rem_mod_nonneg by lia; pose proof (Z.mod_pos_bound i 2); lia).
    assert (Eo : forall x, (if Z.rem i 2 =? 0 then o else zp_mul p o z) * x mod p = (o * z ^ (Z.rem i 2) * x) mod p).
    { intros x. destruct Br as [->| ->]; cbn [Z.eqb].
      - rewrite Z.pow_0_r, Z.mul_1_r. reflexivity.
      - rewrite zp_mul_ok by assumption. rewrite Z.pow_1_r. apply Zmult_mod_idemp_l. }
    assert (Ro : residue p (if Z.rem i 2 =? 0 then o else zp_mul p o z)).
    { destruct (Z.rem i 2 =? 0); [exact Ho|]. rewrite zp_mul_ok by assumption. apply Rm. }
    destruct (Z.eqb_spec (i / 2) 0) as [E0|E0].
    + rewrite IH; [|lia|exact Ro|exact Hz|exact Hi2]. rewrite Eo. rewrite E0, Z.pow_0_r, Z.mul_1_r.
      replace (Z.rem i 2) with i by lia. reflexivity.
    + rewrite IH; [|lia|exact Ro| |exact Hi2].
      2: { rewrite zp_mul_ok by assumption. apply Rm. }
      rewrite Eo. rewrite zp_mul_ok by assumption.
      rewrite <- (Zmult_mod_idemp_r ((z * z mod p) ^ (i / 2))), <- Zpower_mod, Zmult_mod_idemp_r by lia.
      f_equal. f_equal. rewrite Ei at 3. rewrite Z.pow_add_r by lia. rewrite Z.pow_mul_r by lia. rewrite (Z.pow_2_r z). ring.
Qed.
Theorem zp_pow_ok p z i : modulus p -> residue p z -> 0 <= i < 2 ^ 63 -> zp_pow p z i = Ok ((z ^ i) mod p).
Proof.
  intros Hp Hz Hi. unfold zp_pow. rewrite zp_of_i64_ok by (assumption || lia).
  unfold modulus in Hp. rewrite (Z.mod_small 1) by lia.
  rewrite (zp_pow_loop_ok p Hp 63) by (unfold residue in *; cbn; lia). rewrite Z.mul_1_l. reflexivity.
Qed.

(** ** Zp as a coefficient type *)
Section Field.
Variable p : Z.
Hypothesis Hp : modulus p.
Definition zpc := {a : Z | ((0 <=? a) && (a <? p))%bool = true}.
Lemma zpc_eq (a b : zpc) : proj1_sig a = proj1_sig b -> a = b.
Proof. destruct a as [a Ha], b as [b Hb]. cbn. intros <-. f_equal. apply UIP_dec, bool_dec. Qed.
Lemma zpc_res (a : zpc) : residue p (proj1_sig a).
Proof. unfold residue. pose proof (proj2_sig a) as H. cbn in H. lia. Qed.
Lemma okb_of x : residue p x -> ((0 <=? x) && (x <? p))%bool = true.
Proof. unfold residue. lia. Qed.
Lemma mod_res x : residue p (x mod p).
Proof. unfold modulus in Hp. apply Z.mod_pos_bound. lia. Qed.
Lemma okb_mod x y : x = y mod p -> ((0 <=? x) && (x <? p))%bool = true.
Proof. intros ->. apply okb_of, mod_res. Qed.
Definition zpc_of (i : Z) : zpc := exist _ (i mod p) (okb_mod (i mod p) i eq_refl).
Definition zpc_add (a b : zpc) : zpc :=
  exist _ (zp_add p (proj1_sig a) (proj1_sig b)) (okb_mod _ _ (zp_add_ok p _ _ Hp (zpc_res a) (zpc_res b))).
Definition zpc_sub (a b : zpc) : zpc :=
  exist _ (zp_sub p (proj1_sig a) (proj1_sig b)) (okb_mod _ _ (zp_sub_ok p _ _ Hp (zpc_res a) (zpc_res b))).
Definition zpc_mul (a b : zpc) : zpc :=
  exist _ (zp_mul p (proj1_sig a) (proj1_sig b)) (okb_mod _ _ (zp_mul_ok p _ _ Hp (zpc_res a) (zpc_res b))).
Definition zpc_neg (a : zpc) : zpc :=
  exist _ (zp_neg p (proj1_sig a)) (okb_mod _ _ (zp_neg_ok p _ Hp (zpc_res a))).
Definition zpc_eqb (a b : zpc) : bool := zp_eqb (proj1_sig a) (proj1_sig b).
Lemma zpc_quo_ok (a b : zpc) : ((0 <=? (match zp_div p (proj1_sig a) (proj1_sig b) with Ok r => r mod p | _ => 0 end))
   && ((match zp_div p (proj1_sig a) (proj1_sig b) with Ok r => r mod p | _ => 0 end) <? p))%bool = true.
Proof. destruct (zp_div _ _ _); [apply okb_of, mod_res|unfold modulus in Hp; lia..]. Qed.
(** [operator/]; the extra [mod p] is the identity (C05) and only makes the definition total *)
Definition zpc_quo (a b : zpc) : zpc := exist _ _ (zpc_quo_ok a b).
(** number.hh 338-350: [__div] returns the quotient and remainder 0 *)
Definition Zpc : coefs zpc :=
  Coefs zpc (zpc_of 0) (zpc_of 1) zpc_add zpc_mul zpc_sub zpc_neg zpc_eqb zpc_quo (fun _ _ => zpc_of 0).

Lemma v_add a b : proj1_sig (zpc_add a b) = (proj1_sig a + proj1_sig b) mod p.
Proof. apply (zp_add_ok p _ _ Hp (zpc_res a) (zpc_res b)). Qed.
Lemma v_sub a b : proj1_sig (zpc_sub a b) = (proj1_sig a - proj1_sig b) mod p.
Proof. apply (zp_sub_ok p _ _ Hp (zpc_res a) (zpc_res b)). Qed.
Lemma v_mul a b : proj1_sig (zpc_mul a b) = (proj1_sig a * proj1_sig b) mod p.
Proof. apply (zp_mul_ok p _ _ Hp (zpc_res a) (zpc_res b)). Qed.
Lemma v_neg a : proj1_sig (zpc_neg a) = (- proj1_sig a) mod p.
Proof. apply (zp_neg_ok p _ Hp (zpc_res a)). Qed.
Lemma v_of i : proj1_sig (zpc_of i) = i mod p.
Proof. reflexivity. Qed.
Lemma Zpc_ring : ring_ok Zpc.
Proof.
  assert (pp : p <> 0) by (unfold modulus in Hp; lia).
  assert (Sm : forall a : zpc, proj1_sig a mod p = proj1_sig a).
  { intros a. pose proof (zpc_res a) as H. unfold residue in H. apply Z.mod_small, H. }
  split.
  - constructor; cbn; intros; apply zpc_eq; rewrite ?v_add, ?v_sub, ?v_mul, ?v_neg, ?v_of;
      repeat first [rewrite v_add|rewrite v_sub|rewrite v_mul|rewrite v_neg|rewrite v_of];
      repeat first [rewrite Zplus_mod_idemp_l|rewrite Zplus_mod_idemp_r|rewrite Zmult_mod_idemp_l|rewrite Zmult_mod_idemp_r].
    + rewrite Z.add_0_l. apply Sm.
    + f_equal; ring.
    + f_equal; ring.
    + rewrite Z.mul_1_l. apply Sm.
    + f_equal; ring.
    + f_equal; ring.
    + f_equal; ring.
    + f_equal; ring.
    + rewrite Z.add_opp_diag_r. reflexivity.
  - intros a b. cbn. unfold zpc_eqb, zp_eqb. rewrite Z.eqb_eq. split; [apply zpc_eq|congruence].
Qed.
Theorem zp_div_ok a b : prime p -> residue p a -> residue p b -> b <> 0 ->
  exists r, zp_div p a b = Ok r /\ residue p r /\ (r * b) mod p = a.
Proof.
  intros Pr Ha Hb Nb. unfold residue in *. unfold zp_div.
  assert (G1 : Z.gcd b p = 1).
  { apply Zgcd_1_rel_prime. apply rel_prime_le_prime; [exact Pr|lia]. }
  destruct (inv_prime_ok p b Hp ltac:(lia) G1) as (i & -> & Ri & Ei).
  cbn [obind]. unfold residue in Ri. pose proof Hp as Hp'. unfold modulus in Hp'.
  rewrite nmod_mul_ok by (unfold residue; assumption || lia).
  eexists. split; [reflexivity|]. split; [apply Z.mod_pos_bound; lia|].
  rewrite Zmult_mod_idemp_l. replace (a * i * b) with (a * (i * b)) by ring.
  rewrite <- Zmult_mod_idemp_r, Ei, Z.mul_1_r. apply Z.mod_small, Ha.
Qed.
Lemma v_quo a b r : zp_div p (proj1_sig a) (proj1_sig b) = Ok r -> proj1_sig (zpc_quo a b) = r mod p.
Proof. intros E. unfold zpc_quo, proj1_sig at 1. rewrite E. reflexivity. Qed.
Lemma Zpc_field : prime p -> field_ok Zpc.
Proof.
  intros Pr. pose proof Hp as Hp'. unfold modulus in Hp'. split.
  - split; [exact Zpc_ring| |].
    + intros a b H. cbn in *.
      assert (E : (proj1_sig a * proj1_sig b) mod p = 0).
      { rewrite <- v_mul, H, v_of. apply Z.mod_0_l. lia. }
      apply Z.mod_divide in E; [|lia]. apply prime_mult in E; [|exact Pr].
      assert (Z0 : forall x : zpc, (p | proj1_sig x) -> x = zpc_of 0).
      { intros x D. apply zpc_eq. rewrite v_of, Z.mod_0_l by lia. pose proof (zpc_res x) as R. unfold residue in R.
        apply Z.mod_divide in D; [|lia]. rewrite Z.mod_small in D by lia. exact D. }
      destruct E; [left|right]; apply Z0; assumption.
    + cbn. intros H. apply (f_equal (@proj1_sig _ _)) in H. rewrite !v_of, Z.mod_1_l, Z.mod_0_l in H by lia. discriminate.
  - intros a b Hb. change (zpc_mul (zpc_quo a b) b = a). change (b <> zpc_of 0) in Hb.
    apply zpc_eq. rewrite v_mul.
    destruct (zp_div_ok (proj1_sig a) (proj1_sig b) Pr (zpc_res a) (zpc_res b)) as (r & E & R & V).
    { intros Z0. apply Hb. apply zpc_eq. rewrite v_of, Z.mod_0_l by lia. exact Z0. }
    rewrite (v_quo a b r E). rewrite (Z.mod_small r) by exact R. exact V.
  - reflexivity.
Qed.
End Field.
