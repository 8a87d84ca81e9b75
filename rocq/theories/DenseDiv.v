(** * Dense polynomials: degrees; division with remainder. *)
From Coq Require Import Ring_theory Ring Setoid Morphisms Znumtheory.
From Verif Require Import Prelude Coef Spec SpecProofs NumSpec Zp ZpProofs Dense DenseWord DensePoly DenseMul.
Local Open Scope Z_scope.

Section DD.
Variable p : Z.
Hypothesis Hp : modulus p.
Hypothesis Pp : prime p.
Notation K := (Zpc p Hp).
Let HK : ring_ok K := Zpc_ring p Hp.
Local Existing Instance HK.
Add Ring Rring : (rring K HK) (setoid (req_equiv K) (rring_ext K HK)).
Notation "a == b" := (req K a b) (at level 70).
Notation rp := (rpoly (zpc p)).
Notation cst := (cst p Hp).
Notation X := (rvar K 0%N).
Notation D := (dval p Hp).
Notation Xp n := (rpow K X n).
Notation res := (Forall (residue p)).
Notation "f [*] g" := (rmul K f g) (at level 40, left associativity).
Notation "f [+] g" := (radd f g) (at level 50, left associativity).
Notation "[-] g" := (ropp K g) (at level 35).

(** ** lengths (degree + 1) *)
Definition Ln (f : rp) (n : nat) : Prop := exists l, res l /\ stripped l /\ D l == f /\ length l = n.
Definition Le (f : rp) (n : nat) : Prop := exists l, res l /\ D l == f /\ (length l <= n)%nat.
Lemma Ln_D l : res l -> stripped l -> Ln (D l) (length l).
Proof. intros R S. exists l. repeat (split; [assumption || reflexivity|]). reflexivity. Qed.
Lemma Le_D l : res l -> Le (D l) (length l).
Proof. intros R. exists l. repeat (split; [assumption || reflexivity|]). apply le_n. Qed.
Lemma Ln_Le f n m : Ln f n -> (n <= m)%nat -> Le f m.
Proof. intros (l & R & S & E & L) H. exists l. repeat (split; [assumption|]). lia. Qed.
Lemma Le_mono f n m : Le f n -> (n <= m)%nat -> Le f m.
Proof. intros (l & R & E & L) H. exists l. repeat (split; [assumption|]). lia. Qed.
Lemma Ln_proper f g n : f == g -> Ln f n -> Ln g n.
Proof. intros H (l & R & S & E & L). exists l. repeat (split; [assumption|]). split; [rewrite E; exact H|exact L]. Qed.
Lemma Le_proper f g n : f == g -> Le f n -> Le g n.
Proof. intros H (l & R & E & L). exists l. split; [exact R|]. split; [rewrite E; exact H|exact L]. Qed.
Lemma Ln_uniq f n m : Ln f n -> Ln f m -> n = m.
Proof.
  intros (l & R & S & E & L) (l' & R' & S' & E' & L'). rewrite <- L, <- L'. f_equal. apply (D_inj p Hp); auto. rewrite E, E'. reflexivity.
Qed.
Lemma Le_Ln f n : Le f n -> exists k, (k <= n)%nat /\ Ln f k.
Proof.
  intros (l & R & E & L). exists (length (strip l)). split; [pose proof (strip_length l); lia|]. apply (Ln_proper (D (strip l))); [rewrite D_strip; exact E|].
  apply Ln_D; [apply res_strip, R|apply strip_strip].
Qed.
Lemma Ln_Le_inv f n m : Ln f n -> Le f m -> (n <= m)%nat.
Proof. intros H H'. apply Le_Ln in H' as (k & Lk & H'). rewrite (Ln_uniq f n k H H'). exact Lk. Qed.
Lemma Le_add f g n m : Le f n -> Le g m -> Le (f [+] g) (Nat.max n m).
Proof.
  intros (l & R & E & L) (l' & R' & E' & L'). destruct (add_raw_ok p Hp l l' R R') as (Ra & Ea & La). exists (add_raw p l l').
  split; [exact Ra|]. split; [rewrite Ea, E, E'; reflexivity|lia].
Qed.
Lemma Le_opp f n : Le f n -> Le ([-] f) n.
Proof.
  intros (l & R & E & L). destruct (sub_raw_ok p Hp [] l ltac:(constructor) R) as (Ra & Ea & La). exists (sub_raw p [] l).
  split; [exact Ra|]. split; [rewrite Ea, E; cbn [dval]; ring|cbn [length] in La; lia].
Qed.
Lemma Le_0 n : Le r0 n.
Proof. exists []. split; [constructor|]. split; [reflexivity|cbn; lia]. Qed.
Lemma Ln_0 : Ln r0 0.
Proof. exists []. split; [constructor|]. split; [apply stripped_nil|]. split; reflexivity. Qed.
Lemma Ln_0_inv f : Ln f 0 -> f == r0.
Proof. intros (l & R & S & E & L). destruct l; [|discriminate]. symmetry. exact E. Qed.
Lemma Le_0_inv f : Le f 0 -> f == r0.
Proof. intros (l & R & E & L). destruct l; [|cbn in L; lia]. symmetry. exact E. Qed.
Lemma Ln_nz f n : Ln f n -> n <> 0%nat -> ~ f == r0.
Proof. intros H N E. apply N. apply (Ln_uniq f); [exact H|]. apply (Ln_proper r0); [symmetry; exact E|apply Ln_0]. Qed.
(** the coefficient at k *)
Notation cf f k := (coef K f [(0%N, N.of_nat k)]).
Lemma Le_cf f n k : Le f n -> (n <= k)%nat -> cf f k = c0 K.
Proof. intros (l & R & E & L) H. rewrite <- (E _), (coef_D p Hp), nth_overflow by lia. reflexivity. Qed.
Lemma Ln_cf f n : Ln f (S n) -> cf f n <> c0 K.
Proof.
  intros (l & R & S & E & L) C. rewrite <- (E _), (coef_D p Hp) in C. apply (f_equal (@proj1_sig _ _)) in C. change (c0 K) with (zpc_of p Hp 0) in C. rewrite !v_of in C.
  pose proof (res_nth p Hp l n R) as B. unfold residue in B. rewrite Z.mod_small, Z.mod_0_l in C by (assumption || apply (p_nz p Hp)).
  apply (stripped_top l S); [intros ->; discriminate|]. rewrite L. replace (Datatypes.S n - 1)%nat with n by lia. exact C.
Qed.
Lemma Ln_of f n : Le f (S n) -> cf f n <> c0 K -> Ln f (S n).
Proof.
  intros H C. apply Le_Ln in H as (k & Lk & H). destruct (Nat.eq_dec k (S n)) as [->|N]; [exact H|]. exfalso. apply C.
  apply (Le_cf f k); [apply (Ln_Le f k); [exact H|apply le_n]|lia].
Qed.
Lemma Ln_add f g n m : Ln f n -> Le g m -> (m < n)%nat -> Ln (f [+] g) n.
Proof.
  intros F G L. destruct n as [|n]; [lia|]. apply Ln_of.
  - apply (Le_mono _ (Nat.max (S n) m)); [|lia]. apply Le_add; [apply (Ln_Le _ _ _ F), le_n|exact G].
  - unfold radd. rewrite (coef_app K HK), (Le_cf g m n G) by lia. intros C. apply (Ln_cf f n F). rewrite <- C. 
    apply zpc_eq. cbn [cadd Zpc c0]. rewrite v_add, v_of, Z.mod_0_l, Z.add_0_r by apply (p_nz p Hp). symmetry. apply Z.mod_small. apply (zpc_res p).
Qed.
Lemma conv_top A B a b : length A = S a -> length B = S b -> conv A B (a + b) = nth a A 0 * nth b B 0.
Proof.
  intros LA LB. rewrite conv_zsum. replace (a + b + 1)%nat with (a + (1 + b))%nat by lia. rewrite !zsum_split. rewrite (zsum_0 _ a), (zsum_0 _ b).
  - cbn [zsum Nat.add]. replace (a + b - a)%nat with b by lia. ring.
  - intros j Hj. rewrite (nth_overflow A) by lia. reflexivity.
  - intros j Hj. rewrite (nth_overflow B) by lia. apply Z.mul_0_r.
Qed.
Lemma Le_mul f g a b : Le f (S a) -> Le g (S b) -> Le (f [*] g) (S (a + b)).
Proof.
  intros (l & R & E & L) (l' & R' & E' & L'). exists (map (fun k => conv l l' k mod p) (seq 0 (S (a + b)))).
  split; [apply Forall_forall; intros x Hx; apply in_map_iff in Hx as (k & <- & _); apply res_mod, Hp|].
  split; [rewrite D_map_mod, D_conv by lia; rewrite E, E'; reflexivity|]. rewrite map_length, seq_length. apply le_n.
Qed.
Lemma Ln_mul f g a b : Ln f (S a) -> Ln g (S b) -> Ln (f [*] g) (S (a + b)).
Proof.
  intros F G. apply Ln_of; [apply Le_mul; eapply Ln_Le; eauto|]. 
  destruct F as (l & R & S & E & L), G as (l' & R' & S' & E' & L').
  assert (DE : D (map (conv l l') (seq 0 (Datatypes.S (a + b)))) == f [*] g) by (rewrite D_conv by lia; rewrite E, E'; reflexivity).
  rewrite <- (DE _), (coef_D p Hp). rewrite (nth_indep _ 0 (conv l l' 0)) by (rewrite map_length, seq_length; lia).
  rewrite map_nth, seq_nth by lia. cbn [Nat.add]. rewrite (conv_top l l' a b L L'). intros C. apply (f_equal (@proj1_sig _ _)) in C. change (c0 K) with (zpc_of p Hp 0) in C. rewrite !v_of, Z.mod_0_l in C by apply (p_nz p Hp).
  apply Z.mod_divide in C; [|apply (p_nz p Hp)]. apply (prime_mult p Pp) in C.
  assert (T : forall l a, res l -> stripped l -> length l = Datatypes.S a -> ~ (p | nth a l 0)).
  { clear - Hp. intros l a R S L [z Hz]. pose proof (res_nth p Hp l a R) as B. assert (N : nth a l 0 <> 0).
    { pose proof (stripped_top l S ltac:(intros ->; discriminate)) as T. rewrite L in T. replace (Datatypes.S a - 1)%nat with a in T by lia. exact T. }
    unfold residue in B. apply N. rewrite <- (Z.mod_small (nth a l 0) p B), Hz. apply Z_mod_mult. }
  destruct C as [C|C]; [apply (T l a) in C|apply (T l' b) in C]; auto.
Qed.
Lemma Xp_Le n : Le (Xp n) (S n).
Proof.
  exists (repeat 0 n ++ [1]). split; [apply Forall_app; split; [apply res_repeat, Hp|constructor; [unfold residue, modulus in *; lia|constructor]]|].
  split; [|rewrite app_length, repeat_length; cbn; lia]. rewrite D_app, (D_repeat p Hp), repeat_length, D_cons, cst_1. cbn [dval]. ring.
Qed.
Lemma Xp_Ln n : Ln (Xp n) (S n).
Proof.
  exists (repeat 0 n ++ [1]). split; [apply Forall_app; split; [apply res_repeat, Hp|constructor; [unfold residue, modulus in *; lia|constructor]]|].
  split; [|split; [|rewrite app_length, repeat_length; cbn; lia]].
  - apply stripped_of. intros _. rewrite app_length, repeat_length. cbn [length]. rewrite app_nth2; rewrite repeat_length; [|lia]. replace (n + 1 - 1 - n)%nat with 0%nat by lia. cbn. lia.
  - rewrite D_app, (D_repeat p Hp), repeat_length, D_cons, cst_1. cbn [dval]. ring.
Qed.
Lemma Le_shift f n m : Le f n -> Le (Xp m [*] f) (m + n).
Proof.
  intros (l & R & E & L). exists (repeat 0 m ++ l). split; [apply Forall_app; split; [apply res_repeat, Hp|exact R]|].
  split; [|rewrite app_length, repeat_length; lia]. rewrite D_app, (D_repeat p Hp), repeat_length, E. ring.
Qed.
Lemma Ln_shift f n m : Ln f (S n) -> Ln (Xp m [*] f) (m + S n).
Proof. intros H. replace (m + S n)%nat with (S (m + n)) by lia. apply Ln_mul; [apply Xp_Ln|exact H]. Qed.
Lemma Ln_integral f g n m : Ln f n -> Ln g m -> f [*] g == r0 -> f == r0 \/ g == r0.
Proof.
  intros F G E. destruct n as [|n]; [left; apply Ln_0_inv, F|]. destruct m as [|m]; [right; apply Ln_0_inv, G|]. exfalso.
  apply (Ln_nz (f [*] g) (S (n + m))); [apply Ln_mul; auto|lia|exact E].
Qed.

(** ** division *)
Definition V (W : list word3) : dpoly := map val3 W.
Definition allbw (W : list word3) (c : Z) : Prop := Forall (fun w => bw p w c) W.
Lemma bw_weak w c c' : bw p w c -> c <= c' -> bw p w c'.
Proof.
  intros [H B] L. split; [exact H|]. apply (Z.le_trans _ _ _ B). apply Z.mul_le_mono_nonneg_r; [|exact L]. apply Z.mul_nonneg_nonneg; [unfold modulus in Hp; lia|discriminate].
Qed.
Lemma allbw_weak W c c' : allbw W c -> c <= c' -> allbw W c'.
Proof. intros H L. eapply Forall_impl; [|exact H]. intros w Hw. exact (bw_weak w c c' Hw L). Qed.
Lemma mac_list_ok x B (RB : res B) (Hx : 0 <= x < 2 ^ 64) : forall W c, allbw W c -> 0 <= c -> c + 1 < 2 ^ 64 -> (length B <= length W)%nat ->
  let W' := mac_list W x B in allbw W' (c + 1) /\ length W' = length W /\ D (V W') == D (V W) [+] cst x [*] D B /\
  forall j, nth j (V W') 0 = nth j (V W) 0 + x * nth j B 0.
Proof.
  induction RB as [|b B Rb RB IH]; intros W c HW Hc Hc' L; cbv zeta.
  - assert (E : mac_list W x [] = W) by (destruct W; reflexivity). rewrite E. split; [apply (allbw_weak W c); [exact HW|lia]|]. split; [reflexivity|].
    split; [cbn [dval]; ring|]. intros j. destruct j; cbn; lia.
  - destruct HW as [|w W Hw HW]; [cbn in L; lia|]. destruct (bw_mac p Hp w c x b Hw Hc Hc' Hx Rb) as [Hw' Ev].
    destruct (IH W c HW Hc Hc' ltac:(cbn in L; lia)) as (A' & L' & E' & N'). cbn [mac_list]. split; [constructor; assumption|]. split; [cbn [length]; rewrite L'; reflexivity|].
    split; [cbn [V map]; rewrite !D_cons; fold (V (mac_list W x B)) (V W); rewrite E', Ev, cst_add, cst_mul; ring|].
    intros [|j]; [exact Ev|]. cbn [V map nth]. apply N'.
Qed.
Lemma mac_at_ok x B (RB : res B) (Hx : 0 <= x < 2 ^ 64) : forall i W c, allbw W c -> 0 <= c -> c + 1 < 2 ^ 64 -> (i + length B <= length W)%nat ->
  let W' := mac_at i W x B in allbw W' (c + 1) /\ length W' = length W /\ D (V W') == D (V W) [+] Xp i [*] (cst x [*] D B) /\
  forall j, nth j (V W') 0 = nth j (V W) 0 + (if Nat.ltb j i then 0 else x * nth (j - i) B 0).
Proof.
  induction i as [|i IH]; intros W c HW Hc Hc' L; cbv zeta; cbn [mac_at].
  - destruct (mac_list_ok x B RB Hx W c HW Hc Hc' L) as (A' & L' & E' & N'). split; [exact A'|]. split; [exact L'|]. split; [rewrite E'; cbn [rpow]; ring|].
    intros j. rewrite N'. rewrite Nat.sub_0_r. reflexivity.
  - destruct HW as [|w W Hw HW]; [cbn in L; lia|]. destruct (IH W c HW Hc Hc' ltac:(cbn in L; lia)) as (A' & L' & E' & N').
    split; [constructor; [apply (bw_weak w c); [exact Hw|lia]|exact A']|]. split; [cbn [length]; rewrite L'; reflexivity|].
    split; [cbn [V map]; rewrite !D_cons; fold (V (mac_at i W x B)) (V W); rewrite E'; cbn [rpow]; ring|].
    intros [|j]; [cbn; lia|]. cbn [V map nth]. rewrite N'. cbn [Nat.sub]. reflexivity.
Qed.
Lemma div_loop_ok B d inv_lc : res B -> length B = S d -> residue p inv_lc -> (inv_lc * nth d B 0) mod p = 1 ->
  forall ii W Q c, allbw W c -> 0 <= c -> c + Z.of_nat ii < 2 ^ 64 -> (ii + d <= length W)%nat ->
  exists W' Q1, div_loop p ii d inv_lc B W Q = (W', Q1 ++ Q) /\ length Q1 = ii /\ res Q1 /\ allbw W' (c + Z.of_nat ii) /\ length W' = length W /\
    D (V W) == D (V W') [+] D Q1 [*] D B /\
    (forall j, (d <= j < ii + d)%nat -> nth j (V W') 0 mod p = 0) /\ (forall j, (ii + d <= j)%nat -> nth j (V W') 0 = nth j (V W) 0).
Proof.
  intros RB LB Ri Hi. pose proof (p_nz p Hp) as Np. induction ii as [|i IH]; intros W Q c HW Hc Hc' L; cbn [div_loop].
  - exists W, []. cbn [app length Nat.add]. change (Z.of_nat 0) with 0. rewrite Z.add_0_r. repeat (split; [solve [auto | constructor | cbn [dval]; ring]|]). split; [intros j Hj; lia|auto].
  - set (w := nth (i + d) W (0, 0, 0)).
    assert (Hw : bw p w c) by (unfold allbw in HW; rewrite Forall_forall in HW; apply HW, nth_In; lia).
    rewrite (bw_mod p Hp w c Hw) by lia. set (r := val3 w mod p).
    assert (Rr : residue p r) by apply res_mod, Hp.
    rewrite (nmod_mul_ok p r inv_lc Hp Rr) by (unfold residue, modulus in *; lia). set (q := (r * inv_lc) mod p). assert (Rq : residue p q) by apply res_mod, Hp.
    assert (Vw : nth (i + d) (V W) 0 = val3 w).
    { unfold V, w. change 0 with (val3 (0, 0, 0)). rewrite (map_nth val3). reflexivity. }
    assert (Hx : 0 <= p - q < 2 ^ 64) by (unfold residue, modulus in *; lia).
    assert (Rd : (q * nth d B 0) mod p = r mod p).
    { unfold q. rewrite Zmult_mod_idemp_l. replace (r * inv_lc * nth d B 0) with (r * (inv_lc * nth d B 0)) by ring. rewrite <- Zmult_mod_idemp_r, Hi. f_equal. ring. }
    assert (Step : exists W1, (if q =? 0 then W else mac_at i W (wrap64 (p - q)) B) = W1 /\ allbw W1 (c + 1) /\ length W1 = length W /\
      D (V W) == D (V W1) [+] Xp i [*] (cst q [*] D B) /\ nth (i + d) (V W1) 0 mod p = 0 /\ forall j, (i + d < j)%nat -> nth j (V W1) 0 = nth j (V W) 0).
    { destruct (Z.eqb_spec q 0) as [E0|N0].
      - exists W. split; [reflexivity|]. split; [apply (allbw_weak W c); [exact HW|lia]|]. split; [reflexivity|]. split; [rewrite E0, cst_0; ring|]. split; [|auto].
        rewrite Vw. rewrite E0, Z.mul_0_l, Z.mod_0_l in Rd by exact Np. unfold r in Rd. rewrite Z.mod_mod in Rd by exact Np. symmetry. exact Rd.
      - rewrite wrap64_id by exact Hx. destruct (mac_at_ok (p - q) B RB Hx i W c HW Hc ltac:(lia) ltac:(lia)) as (A1 & L1 & E1 & N1).
        exists (mac_at i W (p - q) B). split; [reflexivity|]. split; [exact A1|]. split; [exact L1|]. split; [|split].
        + rewrite E1. rewrite (cst_eq p Hp (p - q) (- q)) by (replace (p - q) with (- q + 1 * p) by ring; apply Z_mod_plus_full). rewrite cst_opp. ring.
        + rewrite N1. destruct (Nat.ltb_spec (i + d) i); [lia|]. replace (i + d - i)%nat with d by lia. rewrite Vw.
          rewrite <- Zplus_mod_idemp_l. fold r. rewrite Z.mul_sub_distr_r. replace (r + (p * nth d B 0 - q * nth d B 0)) with (r - q * nth d B 0 + nth d B 0 * p) by ring.
          rewrite Z_mod_plus_full, Zminus_mod, Rd, <- Zminus_mod, Z.sub_diag. apply Z.mod_0_l, Np.
        + intros j Hj. rewrite N1. destruct (Nat.ltb_spec j i); [lia|]. rewrite (nth_overflow B) by lia. lia. }
    destruct Step as (W1 & -> & A1 & L1 & E1 & T1 & U1).
    destruct (IH W1 (q :: Q) (c + 1) A1 ltac:(lia) ltac:(lia) ltac:(lia)) as (W' & Q1 & Ed & LQ & RQ & A' & L' & E' & T' & U').
    exists W', (Q1 ++ [q]). split; [rewrite Ed, <- app_assoc; reflexivity|]. split; [rewrite app_length, LQ; cbn; lia|].
    split; [apply Forall_app; split; [exact RQ|constructor; [exact Rq|constructor]]|].
    split; [replace (c + Z.of_nat (S i)) with (c + 1 + Z.of_nat i) by lia; exact A'|]. split; [lia|].
    split; [rewrite E1, E', D_app, LQ, D_cons; cbn [dval]; ring|]. split.
    + intros j Hj. destruct (Nat.eq_dec j (i + d)) as [->|Nj]; [rewrite U' by lia; exact T1|apply T'; lia].
    + intros j Hj. rewrite U' by lia. apply U1. lia.
Qed.
Lemma map_lll W c : allbw W c -> c < 2 ^ 64 -> map (lll_mod p) W = map (fun v => v mod p) (V W).
Proof. intros H L. unfold V. rewrite map_map. apply map_ext_in. intros w Hw. unfold allbw in H. rewrite Forall_forall in H. apply (bw_mod p Hp w c); auto. Qed.
Lemma D_modlist l : D (map (fun v => v mod p) l) == D l.
Proof. induction l as [|a l IH]; [reflexivity|]. cbn [map]. rewrite !D_cons, IH, cst_mod. reflexivity. Qed.
Lemma nth_firstn_lt {T} (l : list T) n j x : (j < n)%nat -> nth j (firstn n l) x = nth j l x.
Proof. revert n l. induction j as [|j IH]; intros [|n] [|a l] H; try lia; try reflexivity. cbn [firstn nth]. apply IH. lia. Qed.
Lemma nth_skipn_add {T} (l : list T) n j x : nth j (skipn n l) x = nth (n + j) l x.
Proof. revert l. induction n as [|n IH]; intros l; [reflexivity|]. destruct l as [|a l]; [destruct j; reflexivity|]. cbn [skipn Nat.add nth]. apply IH. Qed.

Theorem divrem_ok A B : res A -> res B -> stripped A -> stripped B -> B <> [] -> small A -> exists Q R, poly_divrem p A B = Ok (Q, R) /\
  res Q /\ res R /\ stripped Q /\ stripped R /\ (length R < length B)%nat /\ D A == D Q [*] D B [+] D R /\ length Q = (length A - (length B - 1))%nat.
Proof.
  intros RA RB SA SB NB Sm. unfold poly_divrem. destruct B as [|b B0]; [contradiction|]. set (B := b :: B0) in *.
  destruct (Nat.ltb_spec (length A) (length B)) as [Lt|Ge].
  - exists [], A. repeat (split; [first [assumption | constructor | reflexivity | cbn [dval]; ring]|]). cbn [length] in *. unfold B in *. cbn [length] in *. lia.
  - set (d := (length B - 1)%nat). assert (LB : length B = S d) by (unfold d, B; cbn [length]; lia).
    pose proof (stripped_top B SB NB) as Tb. fold d in Tb. pose proof (res_nth p Hp B d RB) as Rb.
    assert (G : Z.gcd (nth d B 0) p = 1).
    { apply Zgcd_1_rel_prime, rel_prime_sym, (prime_rel_prime p Pp). intros Dv. apply Z.divide_pos_le in Dv; unfold residue in *; lia. }
    destruct (inv_prime_ok p (nth d B 0) Hp ltac:(unfold residue in *; lia) G) as (inv & -> & Ri & Hi). cbn [obind].
    destruct (div_loop_ok B d inv RB LB Ri) with (ii := (length A - d)%nat) (W := map (fun a => (a, 0, 0)) A) (Q := @nil Z) (c := 1) as (W' & Q1 & E & LQ & RQ & A' & L' & ED & T & _).
    + exact Hi.
    + apply Forall_forall. intros w Hw. apply in_map_iff in Hw as (a & <- & Ha). rewrite Forall_forall in RA. specialize (RA a Ha). unfold residue, modulus in *. split; cbn [w3ok val3]; lia.
    + lia.
    + unfold small in Sm. lia.
    + rewrite map_length. lia.
    + rewrite E, app_nil_r. assert (VA : V (map (fun a => (a, 0, 0)) A) = A).
      { unfold V. rewrite map_map. rewrite <- (map_id A) at 2. apply map_ext. intros a. cbn [val3]. ring. }
      rewrite VA in ED. rewrite map_length in L'.
      set (R := map (lll_mod p) (firstn d W')). assert (RR : res R /\ length R = d /\ D R == D (V W')).
      { unfold R. rewrite (map_lll (firstn d W') (1 + Z.of_nat (length A - d))); [|unfold allbw in *; rewrite Forall_forall in *; intros w Hw; apply A'; rewrite <- (firstn_skipn d W'); apply in_or_app; left; exact Hw|unfold small in Sm; lia].
        split; [|split].
        - apply Forall_forall. intros x Hx. apply in_map_iff in Hx as (y & <- & _). apply res_mod, Hp.
        - unfold V. rewrite !map_length, firstn_length. lia.
        - rewrite D_modlist. unfold V. rewrite <- (firstn_skipn d W') at 2. rewrite map_app, D_app. fold (V (skipn d W')).
          rewrite (D_zero p Hp (V (skipn d W'))); [ring|]. apply Forall_forall. intros x Hx. apply (In_nth _ _ 0) in Hx as (j & Lj & <-). unfold V in Lj |- *. rewrite map_length, skipn_length in Lj.
          rewrite <- skipn_map, nth_skipn_add. apply T. lia. }
      destruct RR as (RR & LR & ER). exists (strip Q1), (strip R). split; [reflexivity|].
      assert (EQ : D A == D (strip Q1) [*] D B [+] D (strip R)) by (rewrite !D_strip, ED, ER; ring).
      split; [apply res_strip, RQ|]. split; [apply res_strip, RR|]. split; [apply strip_strip|]. split; [apply strip_strip|].
      split; [pose proof (strip_length R); lia|]. split; [exact EQ|].
      assert (LnA : Ln (D (strip Q1) [*] D B) (length A)).
      { apply (Ln_proper (D A [+] [-] D (strip R))); [rewrite EQ; ring|]. apply (Ln_add _ _ _ d); [apply Ln_D; auto| |lia].
        apply Le_opp, (Le_mono _ (length (strip R))); [apply Le_D, res_strip, RR|]. pose proof (strip_length R); lia. }
      pose proof (Ln_D (strip Q1) (res_strip p _ RQ) (strip_strip _)) as LnQ. destruct (length (strip Q1)) as [|n].
      * exfalso. apply (Ln_nz _ _ LnA); [lia|]. rewrite (Ln_0_inv _ LnQ). ring.
      * pose proof (Ln_D B RB SB) as LnB. rewrite LB in LnB. pose proof (Ln_uniq _ _ _ LnA (Ln_mul _ _ _ _ LnQ LnB)). lia.
Qed.

Lemma divrem_uniq A B Q R Q' R' : res B -> stripped B -> res Q -> stripped Q -> res R -> stripped R -> res Q' -> stripped Q' -> res R' -> stripped R' ->
  (length R < length B)%nat -> (length R' < length B)%nat -> D A == D Q [*] D B [+] D R -> D A == D Q' [*] D B [+] D R' -> Q = Q' /\ R = R'.
Proof.
  intros RB TB RQ TQ RR TR RQ' TQ' RR' TR' L L' E E'.
  assert (H : (D Q [+] [-] D Q') [*] D B == D R' [+] [-] D R).
  { transitivity (D Q [*] D B [+] D R [+] [-] (D Q' [*] D B [+] D R') [+] D R' [+] [-] D R); [ring|]. rewrite <- E, <- E'. ring. }
  assert (LeR : Le (D R' [+] [-] D R) (Nat.max (length R') (length R))) by (apply Le_add; [apply Le_D, RR'|apply Le_opp, Le_D, RR]).
  destruct (Le_Ln (D Q [+] [-] D Q') _ (Le_add _ _ _ _ (Le_D Q RQ) (Le_opp _ _ (Le_D Q' RQ')))) as (k & _ & Lk).
  assert (k0 : k = 0%nat).
  { destruct k as [|k]; [reflexivity|]. exfalso. pose proof (Ln_D B RB TB) as LB. destruct (length B) as [|b] eqn:EB; [lia|].
    pose proof (Ln_Le_inv _ _ _ (Ln_proper _ _ _ H (Ln_mul _ _ _ _ Lk LB)) LeR). lia. }
  subst k. apply Ln_0_inv in Lk. rewrite Lk in H. split; apply (D_inj p Hp); auto.
  - transitivity (D Q [+] [-] D Q' [+] D Q'); [ring|]. rewrite Lk. ring.
  - transitivity (D R' [+] [-] (D R' [+] [-] D R)); [ring|]. rewrite <- H. ring.
Qed.
Lemma scalar_mul_ok c A : residue p c -> res A -> stripped A ->
  res (d_scalar_mul p c A) /\ stripped (d_scalar_mul p c A) /\ D (d_scalar_mul p c A) == cst c [*] D A /\ (c <> 0 -> length (d_scalar_mul p c A) = length A).
Proof.
  intros Hc RA TA. unfold d_scalar_mul. destruct (Z.eqb_spec c 0) as [->|N0]; [split; [constructor|]; split; [reflexivity|]; split; [rewrite cst_0; cbn [dval]; ring|intros C; contradiction]|].
  destruct (Z.eqb_spec c 1) as [->|N1]; [split; [exact RA|]; split; [exact TA|]; split; [rewrite cst_1; ring|reflexivity]|].
  assert (E : map (fun a => nmod_mul p a c) A = map (fun a => (a * c) mod p) A).
  { apply map_ext_in. intros a Ha. rewrite Forall_forall in RA. apply (nmod_mul_ok p a c Hp (RA a Ha)). unfold residue, modulus in *. lia. }
  rewrite E. assert (R : res (map (fun a => (a * c) mod p) A)) by (apply Forall_forall; intros x Hx; apply in_map_iff in Hx as (a & <- & _); apply res_mod, Hp).
  assert (V' : D (map (fun a => (a * c) mod p) A) == cst c [*] D A).
  { clear -HK. induction A as [|a A IH]; [cbn [map dval]; ring|]. cbn [map]. rewrite !D_cons, IH, cst_mod, cst_mul. ring. }
  split; [exact R|]. split; [|split; [exact V'|rewrite map_length; reflexivity]].
  apply stripped_of. rewrite map_length. intros N. assert (NA : A <> []) by (intros ->; apply N; reflexivity).
  assert (LA : (0 < length A)%nat) by (destruct A; [contradiction|cbn; lia]).
  rewrite (nth_indep _ 0 ((0 * c) mod p)) by (rewrite map_length; lia). rewrite (map_nth (fun a => (a * c) mod p)). intros C.
  apply Z.mod_divide in C; [|apply (p_nz p Hp)]. pose proof (stripped_top A TA NA) as T. pose proof (res_nth p Hp A (length A - 1) RA) as Rn.
  apply (prime_mult p Pp) in C as [C|C]; apply Z.divide_pos_le in C; unfold residue in *; lia.
Qed.
End DD.
