(** * Dense polynomials: the multiplications compute the product. *)
From Coq Require Import Ring_theory Ring Setoid Morphisms Znumtheory.
From Verif Require Import Prelude Coef Spec SpecProofs NumSpec Zp ZpProofs Dense DenseWord DensePoly.
Local Open Scope Z_scope.

(** lengths a std::vector<uint64_t> can have *)
Definition small (l : dpoly) : Prop := Z.of_nat (length l) < 2 ^ 62.

Section DM.
Variable p : Z.
Hypothesis Hp : modulus p.
Notation K := (Zpc p Hp).
Let HK : ring_ok K := Zpc_ring p Hp.
Local Existing Instance HK.
Add Ring Rring : (rring K HK) (setoid (req_equiv K) (rring_ext K HK)).
Notation "a == b" := (req K a b) (at level 70).
Notation rp := (rpoly (zpc p)).
Notation cst := (cst p Hp).
Notation X := (rvar K 0%N).
Notation D := (dval p Hp).
Notation Xp n := (rpow K X n).
Notation res := (Forall (residue p)).

Definition bw (w : word3) (c : Z) : Prop := w3ok w /\ val3 w <= c * (p * 2 ^ 64).
Lemma bw_mod w c : bw w c -> c < 2 ^ 64 -> lll_mod p w = val3 w mod p.
Proof.
  intros [W B] Hc. apply (lll_mod_ok p w Hp W). apply (Z.le_lt_trans _ _ _ B). replace (2 ^ 128) with (2 ^ 64 * 2 ^ 64) by reflexivity.
  replace (p * (2 ^ 64 * 2 ^ 64)) with (2 ^ 64 * (p * 2 ^ 64)) by ring. apply Z.mul_lt_mono_pos_r; [|exact Hc].
  apply Z.mul_pos_pos; [unfold modulus in Hp; lia|reflexivity].
Qed.
Lemma bw_mac w c a b : bw w c -> 0 <= c -> c + 1 < 2 ^ 64 -> 0 <= a < 2 ^ 64 -> residue p b ->
  bw (mac w a b) (c + 1) /\ val3 (mac w a b) = val3 w + a * b.
Proof.
  intros [W B] Hc Hc' Ha Hb. pose proof Hp as Hp'. unfold residue, modulus in *.
  assert (T : 0 <= a * b <= p * 2 ^ 64).
  { split; [apply Z.mul_nonneg_nonneg; lia|]. rewrite Z.mul_comm. apply Z.mul_le_mono_nonneg; lia. }
  assert (U : val3 w + a * b <= (c + 1) * (p * 2 ^ 64)) by (rewrite Z.mul_add_distr_r, Z.mul_1_l; lia).
  assert (V : val3 w + a * b < 2 ^ 192).
  { apply (Z.le_lt_trans _ _ _ U). replace (2 ^ 192) with (2 ^ 64 * (2 ^ 64 * 2 ^ 64)) by reflexivity.
    apply Z.mul_lt_mono_nonneg; lia. }
  destruct (mac_ok w a b W Ha ltac:(lia) V) as [W' E]. split; [|exact E]. split; [exact W'|]. rewrite E. exact U.
Qed.
Lemma bw_0 : bw (0, 0, 0) 0.
Proof. split; cbn; lia. Qed.

(** ** convolution *)
Fixpoint conv (A B : dpoly) (k : nat) : Z :=
  match A with
  | [] => 0
  | a :: A' => a * nth k B 0 + match k with O => 0 | S k' => conv A' B k' end
  end.
Lemma D_map_add (f g : nat -> Z) l : D (map (fun k => f k + g k) l) == radd (D (map f l)) (D (map g l)).
Proof. induction l as [|k l IH]; cbn [map]; [cbn [dval]; ring|]. rewrite !D_cons, IH, cst_add. ring. Qed.
Lemma D_map_mul a (f : nat -> Z) l : D (map (fun k => a * f k) l) == rmul K (cst a) (D (map f l)).
Proof. induction l as [|k l IH]; cbn [map]; [cbn [dval]; ring|]. rewrite !D_cons, IH, cst_mul. ring. Qed.
Lemma D_map_nth B : forall n, (length B <= n)%nat -> D (map (fun k => nth k B 0) (seq 0 n)) == D B.
Proof.
  induction B as [|b B IH]; intros n L.
  - rewrite (D_zero p Hp); [reflexivity|]. apply Forall_forall. intros x Hx. apply in_map_iff in Hx as (k & <- & _). destruct k; apply Z.mod_0_l, (p_nz p Hp).
  - destruct n as [|n]; [cbn in L; lia|]. cbn [seq map nth]. rewrite <- seq_shift, map_map, !D_cons. rewrite IH by (cbn in L; lia). reflexivity.
Qed.
Lemma D_conv B : forall A n, (length A + length B - 1 <= n)%nat -> D (map (conv A B) (seq 0 n)) == rmul K (D A) (D B).
Proof.
  induction A as [|a A IH]; intros n L.
  - cbn [dval conv]. rewrite (D_zero p Hp); [ring|]. apply Forall_forall. intros x Hx. apply in_map_iff in Hx as (k & <- & _). apply Z.mod_0_l, (p_nz p Hp).
  - cbn [length] in L. transitivity (radd (D (map (fun k => a * nth k B 0) (seq 0 n))) (D (map (fun k => match k with O => 0 | S k' => conv A B k' end) (seq 0 n)))).
    { rewrite <- D_map_add. reflexivity. }
    rewrite (D_map_mul a (fun k => nth k B 0)), D_map_nth by lia. rewrite D_cons.
    assert (E : D (map (fun k => match k with O => 0 | S k' => conv A B k' end) (seq 0 n)) == rmul K X (rmul K (D A) (D B))).
    { destruct n as [|n].
      - assert (length A = 0%nat) as LA by lia. destruct A; [|discriminate]. cbn [seq map dval]. ring.
      - cbn [seq map]. rewrite <- seq_shift, map_map, D_cons, cst_0. rewrite IH by lia. ring. }
    rewrite E. ring.
Qed.

(** ** the classical multiplication *)
Fixpoint zsum (f : nat -> Z) (s n : nat) : Z := match n with O => 0 | S n' => f s + zsum f (S s) n' end.
Lemma zsum_ext f g : forall n s, (forall j, (s <= j < s + n)%nat -> f j = g j) -> zsum f s n = zsum g s n.
Proof. induction n as [|n IH]; intros s H; [reflexivity|]. cbn [zsum]. rewrite (H s) by lia. rewrite (IH (S s)); [reflexivity|]. intros j Hj. apply H. lia. Qed.
Lemma zsum_split f : forall n s m, zsum f s (n + m) = zsum f s n + zsum f (s + n) m.
Proof. induction n as [|n IH]; intros s m; cbn [zsum Nat.add]; [rewrite Nat.add_0_r; lia|]. rewrite IH. replace (S s + n)%nat with (s + S n)%nat by lia. lia. Qed.
Lemma zsum_0 f : forall n s, (forall j, (s <= j < s + n)%nat -> f j = 0) -> zsum f s n = 0.
Proof. induction n as [|n IH]; intros s H; [reflexivity|]. cbn [zsum]. rewrite H by lia. rewrite IH; [reflexivity|]. intros j Hj. apply H. lia. Qed.
Lemma zsum_shift f : forall n s, zsum f (S s) n = zsum (fun j => f (S j)) s n.
Proof. induction n as [|n IH]; intros s; [reflexivity|]. cbn [zsum]. rewrite IH. reflexivity. Qed.
Lemma conv_zsum B : forall A k, conv A B k = zsum (fun j => nth j A 0 * nth (k - j) B 0) 0 (k + 1).
Proof.
  induction A as [|a A IH]; intros k.
  - cbn [conv]. symmetry. apply zsum_0. intros j _. destruct j; reflexivity.
  - cbn [conv]. rewrite Nat.add_comm. cbn [Nat.add zsum nth]. rewrite Nat.sub_0_r. f_equal. destruct k as [|k]; [reflexivity|]. rewrite zsum_shift, IH.
    rewrite Nat.add_comm. apply zsum_ext. intros j _. cbn [nth]. reflexivity.
Qed.
Lemma fold_mac A B k (RA : res A) (RB : res B) : forall n s w c, bw w c -> 0 <= c -> c + Z.of_nat n < 2 ^ 64 ->
  let w' := fold_left (fun w j => mac w (nth j A 0) (nth (k - j) B 0)) (seq s n) w in
  bw w' (c + Z.of_nat n) /\ val3 w' = val3 w + zsum (fun j => nth j A 0 * nth (k - j) B 0) s n.
Proof.
  induction n as [|n IH]; intros s w c W Hc Hn; cbn [seq fold_left zsum].
  - change (Z.of_nat 0) with 0. rewrite !Z.add_0_r. auto.
  - pose proof (res_nth p Hp A s RA) as Ra. pose proof (res_nth p Hp B (k - s) RB) as Rb.
    assert (Ra' : 0 <= nth s A 0 < 2 ^ 64) by (unfold residue, modulus in *; lia).
    destruct (bw_mac w c _ _ W Hc ltac:(lia) Ra' Rb) as [W' E].
    destruct (IH (S s) _ (c + 1) W' ltac:(lia) ltac:(lia)) as [W'' E']. rewrite E', E. split; [|ring].
    replace (c + Z.of_nat (S n)) with (c + 1 + Z.of_nat n) by lia. exact W''.
Qed.
Lemma classical_entry A B k : res A -> res B -> small A -> (0 < length A)%nat -> (0 < length B)%nat -> (k < length A + length B - 1)%nat ->
  let jmin := if Nat.leb (length B) k then (k - length B + 1)%nat else 0%nat in
  let jmax := if Nat.ltb k (length A) then k else (length A - 1)%nat in
  lll_mod p (fold_left (fun w j => mac w (nth j A 0) (nth (k - j) B 0)) (seq jmin (jmax + 1 - jmin)) (0, 0, 0)) = conv A B k mod p.
Proof.
  intros RA RB SA LA LB Lk jmin jmax. unfold small in SA.
  assert (J : (jmin <= jmax + 1 /\ jmax <= k /\ jmax + 1 <= length A)%nat).
  { unfold jmin, jmax. destruct (Nat.leb_spec (length B) k), (Nat.ltb_spec k (length A)); lia. }
  destruct (fold_mac A B k RA RB (jmax + 1 - jmin) jmin (0, 0, 0) 0 bw_0 ltac:(lia) ltac:(lia)) as [W E].
  rewrite (bw_mod _ _ W) by lia. rewrite E. f_equal. cbn [val3]. rewrite conv_zsum.
  replace (k + 1)%nat with (jmin + ((jmax + 1 - jmin) + (k - jmax)))%nat by lia. rewrite !zsum_split.
  rewrite (zsum_0 _ jmin), (zsum_0 _ (k - jmax)); [cbn [Nat.add]; ring| |].
  - intros j Hj. rewrite (nth_overflow A) by (unfold jmax in *; destruct (Nat.ltb_spec k (length A)); lia). reflexivity.
  - intros j Hj. rewrite (nth_overflow B) by (unfold jmin in *; destruct (Nat.leb_spec (length B) k); lia). apply Z.mul_0_r.
Qed.
Lemma D_map_mod (f : nat -> Z) l : D (map (fun k => f k mod p) l) == D (map f l).
Proof. induction l as [|k l IH]; cbn [map]; [reflexivity|]. rewrite !D_cons, IH, cst_mod. reflexivity. Qed.
Definition mul_good (A B C : dpoly) : Prop := res C /\ length C = (length A + length B - 1)%nat /\ D C == rmul K (D A) (D B).
Lemma classical_ok A B : res A -> res B -> small A -> A <> [] -> B <> [] -> mul_good A B (classical_mul p A B).
Proof.
  intros RA RB SA NA NB. assert (LA : (0 < length A)%nat) by (destruct A; [contradiction|cbn; lia]). assert (LB : (0 < length B)%nat) by (destruct B; [contradiction|cbn; lia]).
  assert (E : classical_mul p A B = map (fun k => conv A B k mod p) (seq 0 (length A + length B - 1))).
  { unfold classical_mul. apply map_ext_in. intros k Hk. apply in_seq in Hk. apply classical_entry; auto; lia. }
  unfold mul_good. rewrite E. split; [|split].
  - apply Forall_forall. intros x Hx. apply in_map_iff in Hx as (k & <- & _). apply res_mod, Hp.
  - rewrite map_length, seq_length. reflexivity.
  - rewrite D_map_mod. apply D_conv, le_n.
Qed.

(** ** Karatsuba *)
Lemma add_at_ok : forall m C P, res C -> res P -> (m + length P <= length C)%nat ->
  res (add_at p m C P) /\ length (add_at p m C P) = length C /\ D (add_at p m C P) == radd (D C) (rmul K (Xp m) (D P)).
Proof.
  induction m as [|m IH]; intros C P RC RP L.
  - cbn [add_at]. destruct (add_raw_ok p Hp C P RC RP) as (R & E & Le). split; [exact R|]. split; [cbn in L; lia|]. rewrite E. cbn [rpow]. ring.
  - destruct C as [|c C]; [cbn in L; lia|]. cbn [add_at]. inversion RC as [|? ? Rc RC']; subst. destruct (IH C P RC' RP ltac:(cbn in L; lia)) as (R & Le & E).
    split; [constructor; assumption|]. split; [cbn [length]; rewrite Le; reflexivity|]. rewrite !D_cons, E. cbn [rpow]. ring.
Qed.
Lemma kar_ring (a0 a1 b0 b1 x y z : rp) : rmul K y z == rmul K x x ->
  radd (radd (rmul K a0 b0) (rmul K y (radd r0 (rmul K z (rmul K a1 b1)))))
    (rmul K x (radd (radd (rmul K (radd a0 a1) (radd b0 b1)) (ropp K (rmul K a0 b0))) (ropp K (rmul K a1 b1)))) ==
  rmul K (radd a0 (rmul K x a1)) (radd b0 (rmul K x b1)).
Proof.
  intros XX. transitivity (radd (radd (rmul K a0 b0) (rmul K (rmul K y z) (rmul K a1 b1))) (rmul K x (radd (rmul K a0 b1) (rmul K a1 b0)))); [ring|]. rewrite XX. ring.
Qed.
Lemma kar_ok : forall fuel A B, res A -> res B -> small A -> A <> [] -> length B = length A -> mul_good A B (kar_mul p fuel A B).
Proof.
  assert (Base : forall A B, res A -> res B -> small A -> A <> [] -> length B = length A -> mul_good A B (classical_mul p A B)).
  { intros A B RA RB SA NA L. apply classical_ok; auto. intros ->. destruct A; [contradiction|discriminate]. }
  induction fuel as [|f IH]; intros A B RA RB SA NA L; [apply Base; auto|]. cbn [kar_mul].
  destruct (Nat.ltb_spec (length A) kar_threshold) as [Lt|Ge]; [apply Base; auto|]. unfold kar_threshold in Ge.
  remember (length A) as n eqn:En. set (m := Nat.div n 2).
  assert (Hm : (1 <= m /\ 2 * m <= n /\ n < 2 * m + 2)%nat).
  { pose proof (Nat.div_mod n 2 ltac:(clear; lia)) as E. pose proof (Nat.mod_upper_bound n 2 ltac:(clear; lia)) as B2. fold m in E. clearbody m. clear - E B2 Ge. lia. }
  clearbody m.
  set (A0 := firstn m A). set (A1 := skipn m A). set (B0 := firstn m B). set (B1 := skipn m B).
  assert (LA0 : length A0 = m) by (unfold A0; rewrite firstn_length; lia). assert (LB0 : length B0 = m) by (unfold B0; rewrite firstn_length; lia).
  assert (LA1 : length A1 = (n - m)%nat) by (unfold A1; rewrite skipn_length, En; reflexivity). assert (LB1 : length B1 = (n - m)%nat) by (unfold B1; rewrite skipn_length; lia).
  assert (RA0 : res A0) by apply res_firstn, RA. assert (RA1 : res A1) by apply res_skipn, RA. assert (RB0 : res B0) by apply res_firstn, RB. assert (RB1 : res B1) by apply res_skipn, RB.
  destruct (add_raw_ok p Hp A0 A1 RA0 RA1) as (Rt1 & Et1 & Lt1). destruct (add_raw_ok p Hp B0 B1 RB0 RB1) as (Rt2 & Et2 & Lt2).
  rewrite LA0, LA1, Nat.max_r in Lt1 by (clear - Hm; lia). rewrite LB0, LB1, Nat.max_r in Lt2 by (clear - Hm; lia).
  set (t1 := add_raw p A0 A1) in *. set (t2 := add_raw p B0 B1) in *.
  assert (ne : forall l : dpoly, (0 < length l)%nat -> l <> []) by (intros l Hl ->; cbn in Hl; lia).
  unfold small in *. rewrite <- En in SA.
  destruct (IH A0 B0) as (RP0 & LP0 & EP0); auto; try lia; [apply ne; lia|].
  destruct (IH A1 B1) as (RP2 & LP2 & EP2); auto; try lia; [apply ne; lia|].
  destruct (IH t1 t2) as (RP1 & LP1 & EP1); auto; try lia; [apply ne; lia|].
  set (P0 := kar_mul p f A0 B0) in *. set (P1 := kar_mul p f t1 t2) in *. set (P2 := kar_mul p f A1 B1) in *.
  destruct (sub_raw_ok p Hp P1 P0 RP1 RP0) as (RQ1 & EQ1 & LQ1). set (Q1 := sub_raw p P1 P0) in *.
  destruct (sub_raw_ok p Hp Q1 P2 RQ1 RP2) as (RQ2 & EQ2 & LQ2). set (Q2 := sub_raw p Q1 P2) in *.
  assert (RC : res (P0 ++ [0] ++ P2)).
  { apply Forall_app. split; [exact RP0|]. cbn [app]. constructor; [apply res_zero, Hp|exact RP2]. }
  assert (LC : length (P0 ++ [0] ++ P2) = (n + n - 1)%nat) by (rewrite !app_length; cbn [length]; lia).
  destruct (add_at_ok m (P0 ++ [0] ++ P2) Q2 RC RQ2 ltac:(lia)) as (R & Le & E).
  unfold mul_good. split; [exact R|]. split; [rewrite Le, LC; lia|]. rewrite E, D_app, EQ2, EQ1, EP1, Et1, Et2. cbn [app]. rewrite D_cons, cst_0, EP0, EP2, LP0, LA0, LB0.
  assert (DA : D A == radd (D A0) (rmul K (Xp m) (D A1))) by (rewrite <- (firstn_skipn m A) at 1; fold A0 A1; rewrite D_app, LA0; reflexivity).
  assert (DB : D B == radd (D B0) (rmul K (Xp m) (D B1))) by (rewrite <- (firstn_skipn m B) at 1; fold B0 B1; rewrite D_app, LB0; reflexivity).
  rewrite DA, DB.
  assert (XX : rmul K (Xp (m + m - 1)) X == rmul K (Xp m) (Xp m)).
  { replace (m + m - 1)%nat with (m + (m - 1))%nat by lia. rewrite (xp_add p Hp).
    assert (Xp m == rmul K X (Xp (m - 1))) as Em by (replace m with (Datatypes.S (m - 1)) at 1 by lia; reflexivity). rewrite Em at 3. ring. }
  apply kar_ring, XX.
Qed.

Lemma D_pad n B : D (pad n B) == D B.
Proof. unfold pad. rewrite D_app, (D_repeat p Hp). ring. Qed.
Lemma pad_len n B : (length B <= n)%nat -> length (pad n B) = n.
Proof. intros H. unfold pad. rewrite app_length, repeat_length. lia. Qed.
Lemma res_pad n B : res B -> res (pad n B).
Proof. intros R. apply Forall_app. split; [exact R|]. apply res_repeat, Hp. Qed.
(** truncation to the true length loses nothing *)
Lemma D_firstn_eq A B n : res A -> res B -> (length A <= n)%nat -> (n <= length B)%nat -> D A == D B -> D (firstn n B) == D B.
Proof.
  intros RA RB LA LB E. rewrite <- (firstn_skipn n B) at 2. rewrite D_app.
  assert (Z0 : D (skipn n B) == r0).
  { apply (D_zero p Hp). apply Forall_forall. intros x Hx. apply (In_nth _ _ 0) in Hx as (i & _ & <-).
    assert (N : nth i (skipn n B) 0 = nth (n + i) B 0).
    { rewrite <- (firstn_skipn n B) at 2. rewrite app_nth2; rewrite firstn_length; [|lia]. f_equal. lia. }
    rewrite N, <- (D_nth p Hp A B (n + i) RA RB E), nth_overflow by lia. apply Z.mod_0_l, (p_nz p Hp). }
  rewrite Z0. ring.
Qed.
Lemma mul_raw_ok A B : res A -> res B -> small A -> B <> [] -> (length B <= length A)%nat -> mul_good A B (mul_raw p A B).
Proof.
  intros RA RB SA NB L. assert (NA : A <> []) by (intros ->; destruct B; [contradiction|cbn in L; lia]). unfold mul_raw.
  destruct (Nat.ltb_spec (length B) kar_threshold) as [Lt|Ge]; [apply classical_ok; auto|].
  destruct (kar_ok (length A) A (pad (length A) B) RA (res_pad _ _ RB) SA NA (pad_len _ _ L)) as (R & Le & E).
  destruct (classical_ok A B RA RB SA NA NB) as (R' & Le' & E'). rewrite pad_len in Le by exact L. rewrite D_pad in E.
  split; [apply res_firstn, R|]. split; [rewrite firstn_length; lia|].
  rewrite (D_firstn_eq (classical_mul p A B) _ (length A + length B - 1)); [exact E|exact R'|exact R|lia|lia|rewrite E, E'; reflexivity].
Qed.
Lemma mul_any_ok A B : res A -> res B -> small A -> small B -> 
  res (mul_any p A B) /\ D (mul_any p A B) == rmul K (D A) (D B) /\
  length (mul_any p A B) = match A, B with [], _ | _, [] => 0%nat | _, _ => (length A + length B - 1)%nat end.
Proof.
  intros RA RB SA SB. unfold mul_any. destruct A as [|a A]; [split; [constructor|]; split; [cbn [dval]; ring|reflexivity]|].
  destruct B as [|b B]; [split; [constructor|]; split; [cbn [dval]; ring|reflexivity]|].
  destruct (Nat.leb_spec (length (b :: B)) (length (a :: A))) as [L|L].
  - destruct (mul_raw_ok (a :: A) (b :: B) RA RB SA ltac:(discriminate) L) as (R & Le & E). auto.
  - destruct (mul_raw_ok (b :: B) (a :: A) RB RA SB ltac:(discriminate) ltac:(lia)) as (R & Le & E). split; [exact R|]. split; [rewrite E; ring|rewrite Le; lia].
Qed.
Lemma d_mul_ok A B : res A -> res B -> small A -> small B ->
  res (d_mul p A B) /\ stripped (d_mul p A B) /\ D (d_mul p A B) == rmul K (D A) (D B).
Proof.
  intros RA RB SA SB. unfold d_mul. destruct A as [|a A]; [split; [constructor|]; split; [reflexivity|cbn [dval]; ring]|].
  destruct B as [|b B]; [split; [constructor|]; split; [reflexivity|cbn [dval]; ring]|].
  set (A' := a :: A) in *. set (B' := b :: B) in *. set (n := Nat.max (length A') (length B')).
  assert (G : forall C, mul_good A' B' C \/ mul_good (pad n A') (pad n B') C -> res (strip C) /\ stripped (strip C) /\ D (strip C) == rmul K (D A') (D B')).
  { intros C H. assert (H' : res C /\ D C == rmul K (D A') (D B')).
    { destruct H as [(R & _ & E)|(R & _ & E)]; [split; auto|]. rewrite !D_pad in E. split; auto. }
    destruct H' as [R E]. split; [apply res_strip, R|]. split; [apply strip_strip|]. rewrite D_strip. exact E. }
  destruct (Nat.ltb n kar_threshold); apply G; [left; apply classical_ok; auto; discriminate|right].
  apply kar_ok; auto using res_pad.
  - unfold small in *. rewrite pad_len; unfold n; lia.
  - unfold pad, A'. discriminate.
  - rewrite !pad_len; unfold n; lia.
Qed.
End DM.
