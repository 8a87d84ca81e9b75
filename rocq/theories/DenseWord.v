(** * Word-level arithmetic of the dense polynomials: two- and three-word residues. *)
From Verif Require Import Prelude NumSpec Zp ZpProofs Dense.
Local Open Scope Z_scope.

(** Division of hi*2^64+lo by a normalised word d (the instruction sequence of nmod_mul and _lll_mod_preinv). *)
Definition mg (d v hi lo : Z) : Z :=
  let qm := wrap128 (hi * v) in
  let q1 := wrap64 (Z.shiftr qm 64) in
  let q0 := wrap64 qm in
  let q0 := wrap64 (q0 + lo) in
  let q1 := wrap64 (q1 + wrap64 (hi + (if q0 <? lo then 1 else 0))) in
  let r := wrap64 (lo - wrap64 (wrap64 (q1 + 1) * d)) in
  let r := if q0 <? r then wrap64 (r + d) else r in
  if d <=? r then wrap64 (r - d) else r.
Lemma mg_ok d hi lo : 2 ^ 63 <= d < 2 ^ 64 -> 0 <= hi < d -> 0 <= lo < 2 ^ 64 ->
  mg d (preinvert_limb d) hi lo = (hi * 2 ^ 64 + lo) mod d.
Proof.
  intros Hd Hhi Hlo. unfold mg.
  destruct (preinvert_spec d Hd) as [Hv (k & Hk & Ek)]. set (v := preinvert_limb d) in *.
  assert (Hqm : 0 <= hi * v < 2 ^ 128).
  { change (2 ^ 128) with (2 ^ 64 * 2 ^ 64). split; [apply Z.mul_nonneg_nonneg; lia|]. apply Z.mul_lt_mono_nonneg; lia. }
  rewrite (wrap128_id (hi * v)) by exact Hqm. rewrite (Z.shiftr_div_pow2 (hi * v)) by lia.
  set (QM := hi * v) in *. set (P := hi * 2 ^ 64 + lo).
  assert (EQ : QM = QM / 2 ^ 64 * 2 ^ 64 + QM mod 2 ^ 64) by (rewrite Z.mul_comm; apply Z.div_mod; lia).
  pose proof (Z.mod_pos_bound QM (2 ^ 64) ltac:(lia)) as Hq0.
  assert (Hq1 : 0 <= QM / 2 ^ 64 < 2 ^ 64) by (split; [apply Z.div_pos; lia|apply Z.div_lt_upper_bound; [lia|]; exact (proj2 Hqm)]).
  rewrite (wrap64_id (QM / 2 ^ 64)) by lia. change (wrap64 QM) with (QM mod 2 ^ 64).
  set (qh := QM / 2 ^ 64) in *. set (ql := QM mod 2 ^ 64) in *.
  set (q0 := wrap64 (ql + lo)). set (cy := if q0 <? lo then 1 else 0).
  assert (Eq0 : ql + lo = cy * 2 ^ 64 + q0 /\ 0 <= q0 < 2 ^ 64).
  { unfold cy, q0, wrap64, two64. pose proof (Z.mod_pos_bound (ql + lo) (2 ^ 64) ltac:(lia)).
    split; [|lia]. destruct (Z.lt_ge_cases (ql + lo) (2 ^ 64)) as [L|L].
    - rewrite (Z.mod_small (ql + lo)) by lia. destruct (Z.ltb_spec (ql + lo) lo); lia.
    - assert (E : (ql + lo) mod 2 ^ 64 = ql + lo - 2 ^ 64).
      { replace (ql + lo) with (ql + lo - 2 ^ 64 + 1 * 2 ^ 64) at 1 by lia. rewrite Z_mod_plus_full. apply Z.mod_small. lia. }
      rewrite E. destruct (Z.ltb_spec (ql + lo - 2 ^ 64) lo); lia. }
  destruct Eq0 as [Eq0 Bq0]. clearbody q0 cy.
  assert (Eqq : (qh + (hi + cy)) * 2 ^ 64 + q0 = (2 ^ 64 + v) * hi + lo) by (unfold QM in *; lia).
  destruct (mg_core (2 ^ 64) d v k hi lo (qh + (hi + cy)) q0 eq_refl Hd Hv Hk Ek Hhi Hlo Bq0 Eqq) as (M1 & M2 & M3).
  rewrite (wrap64_r qh (hi + cy)). rewrite wrap64_l, wrap64_mul_l, wrap64_sub.
  set (Q := qh + (hi + cy)) in *.
  set (rt := hi * 2 ^ 64 + lo - (Q + 1) * d) in *.
  replace (wrap64 (lo - (Q + 1) * d)) with (wrap64 rt).
  2: { unfold rt. replace (hi * 2 ^ 64 + lo - (Q + 1) * d) with (lo - (Q + 1) * d + hi * 2 ^ 64) by ring. apply mod_shift. }
  assert (EPm : forall r3 n, 0 <= r3 < d -> r3 = P + n * d -> r3 = P mod d).
  { intros r3 n Hr E. rewrite E in *. symmetry. rewrite <- (Z_mod_plus_full P n d). apply Z.mod_small. exact Hr. }
  assert (EPr : rt = P + (- (Q + 1)) * d) by (unfold rt, P; lia).
  destruct (Z.lt_ge_cases rt 0) as [Neg|Pos].
  - assert (W : wrap64 rt = rt + 2 ^ 64).
    { rewrite <- (mod_shift rt 1). rewrite wrap64_id; lia. }
    rewrite W. destruct (Z.ltb_spec q0 (rt + 2 ^ 64)); [|lia].
    assert (W2 : wrap64 (rt + 2 ^ 64 + d) = rt + d).
    { replace (rt + 2 ^ 64 + d) with (rt + d + 1 * 2 ^ 64) by ring. rewrite mod_shift. apply wrap64_id. lia. }
    rewrite W2. destruct (Z.leb_spec d (rt + d)); [lia|].
    apply (EPm _ (- Q)); [lia|]. lia.
  - rewrite (wrap64_id rt) by lia. destruct (Z.ltb_spec q0 rt) as [G|G].
    + rewrite (wrap64_id (rt + d)) by lia. destruct (Z.leb_spec d (rt + d)); [|lia].
      rewrite wrap64_id by lia. apply (EPm _ (- (Q + 1))); lia.
    + destruct (Z.leb_spec d rt).
      * rewrite wrap64_id by lia. apply (EPm _ (- (Q + 2))); lia.
      * apply (EPm _ (- (Q + 1))); lia.
Qed.

Lemma lor_disj h l n : 0 <= n -> 0 <= l < 2 ^ n -> Z.lor (h * 2 ^ n) l = h * 2 ^ n + l.
Proof.
  intros Hn Hl. symmetry. rewrite <- Z.lxor_lor; [apply Z.add_nocarry_lxor|]; apply Z.bits_inj'; intros i Hi; rewrite Z.land_spec, Z.bits_0;
  (destruct (Z.lt_ge_cases i n); [rewrite Z.mul_pow2_bits_low by lia; reflexivity|]);
  rewrite <- (Z.mod_small l (2 ^ n)) by lia; rewrite Z.mod_pow2_bits_high by lia; apply andb_false_r.
Qed.

Lemma ll_step_ok p h l : modulus p -> 0 <= h < p -> 0 <= l < 2 ^ 64 ->
  ll_step p (norm_of p) (ninv_of p) h l = (h * 2 ^ 64 + l) mod p.
Proof.
  intros Hp Hh Hl. unfold ll_step. rewrite pn_eq by exact Hp. cbv zeta.
  pose proof (norm_range p Hp) as Hs. pose proof (pn_range p Hp) as Hd. unfold ninv_of. rewrite pn_eq by exact Hp.
  set (s := norm_of p) in *. unfold modulus in Hp.
  assert (Ps : 0 < 2 ^ s) by (apply Z.pow_pos_nonneg; lia). set (d := p * 2 ^ s) in *.
  rewrite (Z.shiftl_mul_pow2 h), (Z.shiftl_mul_pow2 l) by lia.
  assert (Hhs : 0 <= h * 2 ^ s < d) by (unfold d; split; [apply Z.mul_nonneg_nonneg; lia|apply Z.mul_lt_mono_pos_r; lia]).
  rewrite (wrap64_id (h * 2 ^ s)) by lia.
  set (hs := if 0 <? s then _ else _).
  assert (E64 : 2 ^ 64 = 2 ^ (64 - s) * 2 ^ s) by (rewrite <- Z.pow_add_r by lia; f_equal; lia).
  assert (P64 : 0 < 2 ^ (64 - s)) by (apply Z.pow_pos_nonneg; lia).
  assert (Bq : 0 <= l / 2 ^ (64 - s) < 2 ^ s) by (split; [apply Z.div_pos; lia|apply Z.div_lt_upper_bound; lia]).
  assert (Ehs : hs = h * 2 ^ s + l / 2 ^ (64 - s)).
  { unfold hs. destruct (Z.ltb_spec 0 s) as [G|G].
    - rewrite Z.shiftr_div_pow2 by lia. apply lor_disj; lia.
    - assert (s = 0) as -> by lia. rewrite Z.sub_0_r. rewrite Z.div_small by lia. lia. }
  assert (Els : wrap64 (l * 2 ^ s) = (l mod 2 ^ (64 - s)) * 2 ^ s).
  { unfold wrap64, two64. rewrite E64. apply Zmult_mod_distr_r. }
  assert (Bls : 0 <= wrap64 (l * 2 ^ s) < 2 ^ 64) by (unfold wrap64, two64; apply Z.mod_pos_bound; lia).
  assert (Etot : hs * 2 ^ 64 + wrap64 (l * 2 ^ s) = (h * 2 ^ 64 + l) * 2 ^ s).
  { rewrite Ehs, Els. pose proof (Z.div_mod l (2 ^ (64 - s)) ltac:(lia)) as DM.
    transitivity (h * 2 ^ s * 2 ^ 64 + (2 ^ (64 - s) * (l / 2 ^ (64 - s)) + l mod 2 ^ (64 - s)) * 2 ^ s).
    { rewrite E64 at 2. rewrite E64 at 1. ring. }
    rewrite <- DM. ring. }
  assert (Bhs : 0 <= hs < d).
  { rewrite Ehs. split; [lia|]. assert (h * 2 ^ s <= (p - 1) * 2 ^ s) by (apply Z.mul_le_mono_nonneg_r; lia).
    assert ((p - 1) * 2 ^ s = d - 2 ^ s) by (unfold d; ring). lia. }
  change (Z.shiftr (mg d (preinvert_limb d) hs (wrap64 (l * 2 ^ s))) s = (h * 2 ^ 64 + l) mod p).
  rewrite (mg_ok d hs _ Hd Bhs Bls), Etot. unfold d. rewrite Zmult_mod_distr_r.
  rewrite Z.shiftr_div_pow2 by lia. apply Z.div_mul. lia.
Qed.

(** ** Three-word accumulators *)
Definition val3 (w : word3) : Z := let '(lo, mid, hi) := w in lo + mid * 2 ^ 64 + hi * 2 ^ 128.
Definition w3ok (w : word3) : Prop := let '(lo, mid, hi) := w in 0 <= lo < 2 ^ 64 /\ 0 <= mid < 2 ^ 64 /\ 0 <= hi < 2 ^ 64.
Lemma split_wrap x n : 0 <= x < 2 ^ n * 2 ^ 64 -> 0 <= n -> n <= 64 -> 
  wrap64 (Z.shiftr (wrap128 x) 64) = x / 2 ^ 64 /\ wrap64 (wrap128 x) = x mod 2 ^ 64 /\ 0 <= x / 2 ^ 64 < 2 ^ n.
Proof.
  intros Hx Hn Hn'. assert (2 ^ n <= 2 ^ 64) by (apply Z.pow_le_mono_r; lia).
  assert (B : 0 <= x / 2 ^ 64 < 2 ^ n) by (split; [apply Z.div_pos; lia|apply Z.div_lt_upper_bound; lia]).
  rewrite wrap128_id by (change (2 ^ 128) with (2 ^ 64 * 2 ^ 64); lia). rewrite Z.shiftr_div_pow2 by lia.
  split; [apply wrap64_id; lia|]. split; [reflexivity|exact B].
Qed.
Lemma mac_ok w a b : w3ok w -> 0 <= a < 2 ^ 64 -> 0 <= b < 2 ^ 64 -> val3 w + a * b < 2 ^ 192 ->
  w3ok (mac w a b) /\ val3 (mac w a b) = val3 w + a * b.
Proof.
  destruct w as [[lo mid] hi]. cbn [w3ok val3]. intros (Hl & Hm & Hh) Ha Hb Hv. unfold mac, umul128.
  assert (Bab : 0 <= a * b < 2 ^ 64 * 2 ^ 64) by (split; [apply Z.mul_nonneg_nonneg; lia|apply Z.mul_lt_mono_nonneg; lia]).
  destruct (split_wrap (a * b) 64 Bab ltac:(lia) ltac:(lia)) as (-> & -> & B1).
  pose proof (Z.mod_pos_bound (a * b) (2 ^ 64) ltac:(lia)) as B0.
  pose proof (Z.div_mod (a * b) (2 ^ 64) ltac:(lia)) as E0.
  set (p1 := a * b / 2 ^ 64) in *. set (p0 := (a * b) mod 2 ^ 64) in *. unfold add_carry3.
  assert (Bs : 0 <= lo + p0 < 2 ^ 1 * 2 ^ 64) by (change (2 ^ 1) with 2; lia).
  destruct (split_wrap (lo + p0) 1 Bs ltac:(lia) ltac:(lia)) as (-> & -> & C1).
  pose proof (Z.mod_pos_bound (lo + p0) (2 ^ 64) ltac:(lia)) as B2. pose proof (Z.div_mod (lo + p0) (2 ^ 64) ltac:(lia)) as E1.
  set (cy := (lo + p0) / 2 ^ 64) in *. change (2 ^ 1) with 2 in C1.
  assert (Bs2 : 0 <= mid + p1 + cy < 2 ^ 1 * 2 ^ 64) by (change (2 ^ 1) with 2; lia).
  destruct (split_wrap (mid + p1 + cy) 1 Bs2 ltac:(lia) ltac:(lia)) as (-> & -> & C2).
  pose proof (Z.mod_pos_bound (mid + p1 + cy) (2 ^ 64) ltac:(lia)) as B3. pose proof (Z.div_mod (mid + p1 + cy) (2 ^ 64) ltac:(lia)) as E2.
  set (cy2 := (mid + p1 + cy) / 2 ^ 64) in *. change (2 ^ 1) with 2 in C2.
  set (l' := (lo + p0) mod 2 ^ 64) in *. set (m' := (mid + p1 + cy) mod 2 ^ 64) in *.
  assert (V : l' + m' * 2 ^ 64 + (hi + cy2) * 2 ^ 128 = lo + mid * 2 ^ 64 + hi * 2 ^ 128 + a * b).
  { change (2 ^ 128) with (2 ^ 64 * 2 ^ 64). rewrite E0.
    replace l' with (lo + p0 - 2 ^ 64 * cy) by lia. replace m' with (mid + p1 + cy - 2 ^ 64 * cy2) by lia. ring. }
  assert (Bh : hi + cy2 < 2 ^ 64).
  { apply (Z.mul_lt_mono_pos_r (2 ^ 128)); [reflexivity|]. change (2 ^ 64 * 2 ^ 128) with (2 ^ 192). lia. }
  rewrite (wrap64_id (hi + cy2)) by lia. split; [cbn [w3ok]; lia|exact V].
Qed.
Lemma val3_nonneg w : w3ok w -> 0 <= val3 w.
Proof. destruct w as [[lo mid] hi]. cbn [w3ok val3]. intros (Hl & Hm & Hh). lia. Qed.
Lemma lll_mod_ok p w : modulus p -> w3ok w -> val3 w < p * 2 ^ 128 -> lll_mod p w = val3 w mod p.
Proof.
  destruct w as [[lo mid] hi]. cbn [w3ok val3]. intros Hp (Hl & Hm & Hh) Hv. unfold lll_mod.
  assert (Hhp : hi < p).
  { apply (Z.mul_lt_mono_pos_r (2 ^ 128)); [reflexivity|]. lia. }
  unfold modulus in Hp. rewrite (ll_step_ok p hi mid) by (unfold modulus; lia). rewrite ll_step_ok by (try (unfold modulus); try apply Z.mod_pos_bound; lia).
  rewrite <- Zplus_mod_idemp_l, Zmult_mod_idemp_l, Zplus_mod_idemp_l. f_equal. change (2 ^ 128) with (2 ^ 64 * 2 ^ 64). ring.
Qed.
Lemma nmod_add_ok p a b : modulus p -> residue p a -> residue p b -> nmod_add p a b = (a + b) mod p.
Proof. apply zp_add_ok. Qed.
Lemma nmod_sub_ok p a b : modulus p -> residue p a -> residue p b -> nmod_sub p a b = (a - b) mod p.
Proof. apply zp_sub_ok. Qed.
