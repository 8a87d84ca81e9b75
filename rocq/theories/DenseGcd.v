(** * Dense polynomials: Euclid and half-gcd compute greatest common divisors. *)
From Coq Require Import Ring_theory Ring Setoid Morphisms Znumtheory.
From Verif Require Import Prelude Coef Spec SpecProofs NumSpec Zp ZpProofs GcdDom GcdPoly Dense DenseWord DensePoly DenseMul DenseDiv.
Local Open Scope Z_scope.

Section DG.
Variable p : Z.
Hypothesis Hp : modulus p.
Hypothesis Pp : prime p.
Notation K := (Zpc p Hp).
Let HK : ring_ok K := Zpc_ring p Hp.
Local Existing Instance HK.
Add Ring Rring : (rring K HK) (setoid (req_equiv K) (rring_ext K HK)).
Notation "a == b" := (req K a b) (at level 70).
Notation rp := (rpoly (zpc p)).
Notation D := (dval p Hp).
Notation Xp n := (rpow K (rvar K 0%N) n).
Notation res := (Forall (residue p)).
Notation "f [*] g" := (rmul K f g) (at level 40, left associativity).
Notation "f [+] g" := (radd f g) (at level 50, left associativity).
Notation "[-] g" := (ropp K g) (at level 35).
Notation Ln := (Ln p Hp). Notation Le := (Le p Hp).

(** ** gcds and linear combinations *)
Lemma dvd_lin d a b x y : rdivides K d a -> rdivides K d b -> rdivides K d (x [*] a [+] y [*] b).
Proof. intros [u Hu] [v Hv]. exists (x [*] u [+] y [*] v). rewrite Hu, Hv. ring. Qed.
Lemma dvd_eq d a b : a == b -> rdivides K d a -> rdivides K d b.
Proof. intros E [u Hu]. exists u. rewrite <- E. exact Hu. Qed.
Lemma gcd_lin g a b A B x0 x1 x2 x3 y0 y1 y2 y3 : a == x0 [*] A [+] x1 [*] B -> b == x2 [*] A [+] x3 [*] B ->
  A == y0 [*] a [+] y1 [*] b -> B == y2 [*] a [+] y3 [*] b -> is_gcd K A B g -> is_gcd K a b g.
Proof.
  intros Ea Eb EA EB (G1 & G2 & G3). split; [|split].
  - apply (dvd_eq g (x0 [*] A [+] x1 [*] B)); [symmetry; exact Ea|apply dvd_lin; auto].
  - apply (dvd_eq g (x2 [*] A [+] x3 [*] B)); [symmetry; exact Eb|apply dvd_lin; auto].
  - intros d Da Db. apply G3.
    + apply (dvd_eq d (y0 [*] a [+] y1 [*] b)); [symmetry; exact EA|apply dvd_lin; auto].
    + apply (dvd_eq d (y2 [*] a [+] y3 [*] b)); [symmetry; exact EB|apply dvd_lin; auto].
Qed.
Lemma gcd_div g A B Q R : A == Q [*] B [+] R -> is_gcd K B R g -> is_gcd K A B g.
Proof.
  intros E. apply (gcd_lin g A B B R Q (r1 K) (r1 K) r0 r0 (r1 K) (r1 K) ([-] Q)); [rewrite E; ring|ring|ring|rewrite E; ring].
Qed.
Lemma gcd_0 A : is_gcd K A r0 A.
Proof. split; [exists (r1 K); ring|]. split; [exists r0; ring|auto]. Qed.

Definition okp (l : dpoly) : Prop := res l /\ stripped l.
Definition gcd_good (A B : dpoly) (o : outcome dpoly) : Prop := exists g, o = Ok g /\ okp g /\ is_gcd K (D A) (D B) (D g) /\ (g = [] -> A = [] /\ B = []).
Lemma euclid_ok : forall fuel A B, okp A -> okp B -> small A -> small B -> (length B < fuel)%nat -> gcd_good A B (gcd_euclid p fuel A B).
Proof.
  induction fuel as [|f IH]; intros A B OA OB SA SB L; [lia|]. cbn [gcd_euclid]. destruct B as [|b B0]; [|set (B := b :: B0) in *].
  - exists A. split; [reflexivity|]. split; [exact OA|]. split; [apply gcd_0|auto].
  - destruct OA as [RA TA], OB as [RB TB].
    destruct (divrem_ok p Hp Pp A B RA RB TA TB ltac:(discriminate) SA) as (Q & R & -> & RQ & RR & TQ & TR & LR & E & _). cbn [obind].
    destruct (IH B R) as (g & Eg & Og & Gg & Ng); try (split; assumption); auto; [unfold small in *; lia|lia|]. exists g. split; [exact Eg|]. split; [exact Og|].
    split; [apply (gcd_div _ _ _ _ _ E), Gg|]. intros Eg'. destruct (Ng Eg') as [C _]. discriminate.
Qed.

(** ** half-gcd *)
Definition sg (s : bool) : rp := if s then r1 K else [-] (r1 K).
Definition msize (M : mat) (n : nat) : Prop := let '(M0, M1, M2, M3) := M in
  (res M0 /\ length M0 <= n)%nat /\ (res M1 /\ length M1 <= n)%nat /\ (res M2 /\ length M2 <= n)%nat /\ (res M3 /\ length M3 <= n)%nat.
Definition mapp (M : mat) (a b A B : rp) (s : bool) : Prop := let '(M0, M1, M2, M3) := M in
  a == D M0 [*] A [+] D M1 [*] B /\ b == D M2 [*] A [+] D M3 [*] B /\ D M0 [*] D M3 [+] [-] (D M1 [*] D M2) == sg s.
(** a step from (a, b) to (A, B): (a, b) = M (A, B), det M = sgn, and the size bounds *)
Definition hstep (a b : dpoly) (M : mat) (A B : dpoly) (s : bool) : Prop :=
  okp A /\ okp B /\ mapp M (D a) (D b) (D A) (D B) s /\ (length A <= length a)%nat /\ (length B < length A)%nat /\ msize M (length a + 1 - length A).
Definition hgood (a b : dpoly) (o : outcome (mat * dpoly * dpoly * bool)) : Prop :=
  exists M A B s, o = Ok (M, A, B, s) /\ hstep a b M A B s /\ (Nat.div (length a) 2 + 1 <= length A)%nat /\ (length B <= Nat.div (length a) 2)%nat.
Lemma hstep_one a b : okp a -> okp b -> (length b < length a)%nat -> hstep a b mat_one a b true.
Proof.
  intros Oa Ob L. split; [exact Oa|]. split; [exact Ob|].
  assert (R1 : res [1]) by (constructor; [unfold residue, modulus in *; lia|constructor]).
  assert (E1 : D [1] == r1 K) by (rewrite D_cons, cst_1; cbn [dval]; ring).
  split; [|split; [lia|split; [exact L|]]].
  - unfold mat_one, mapp, sg. rewrite E1. cbn [dval]. repeat split; ring.
  - unfold mat_one, msize. split; [|split; [|split]]; (split; [assumption || constructor|cbn [length]; lia]).
Qed.
(** M1 + Q*M0, whichever branch the code takes *)
Lemma madd_ok (M1 M0 Q : dpoly) n : res M1 -> res M0 -> res Q -> small M0 -> small Q -> (length M1 <= n)%nat -> (length Q + length M0 - 1 <= n)%nat ->
  let C := match Q, M0 with [], _ | _, [] => M1 | _, _ => poly_add p M1 (mul_any p Q M0) end in
  res C /\ D C == D M1 [+] D Q [*] D M0 /\ (length C <= n)%nat.
Proof.
  intros R1 R0 RQ S0 SQ L1 L. destruct (mul_any_ok p Hp Q M0 RQ R0 SQ S0) as (Rm & Em & Lm). destruct (poly_add_ok p Hp M1 (mul_any p Q M0) R1 Rm) as (Ra & Ta & Ea & La).
  cbv zeta. destruct Q as [|q Q]; [split; [exact R1|]; split; [cbn [dval]; ring|exact L1]|].
  destruct M0 as [|c M0]; [split; [exact R1|]; split; [cbn [dval]; ring|exact L1]|]. split; [exact Ra|]. split; [rewrite Ea, Em; reflexivity|lia].
Qed.
Lemma row_ok (M0 M1 Q : dpoly) n : res M1 -> res M0 -> res Q -> small M0 -> small Q -> (length M1 <= n)%nat -> (length M0 <= n)%nat -> (length Q + length M0 - 1 <= n)%nat ->
  exists C, row_update p M0 M1 Q = (C, M0) /\ res C /\ D C == D M1 [+] D Q [*] D M0 /\ (length C <= n)%nat.
Proof.
  intros R1 R0 RQ S0 SQ L1 L0 L. pose proof (madd_ok M1 M0 Q n R1 R0 RQ S0 SQ L1 L) as H. cbv zeta in H. eexists. split; [|exact H]. unfold row_update. destruct Q; [reflexivity|]. destruct M0; reflexivity.
Qed.
Lemma sg_neg s : sg (negb s) == [-] (sg s).
Proof. destruct s; cbn [negb sg]; ring. Qed.
Lemma iter_ok a b m : small a -> forall fuel M A B s, (length B < fuel)%nat -> hstep a b M A B s -> (m + 1 <= length A)%nat ->
  exists M' A' B' s', hgcd_iter_loop p fuel m M A B s = Ok (M', A', B', s') /\ hstep a b M' A' B' s' /\ (m + 1 <= length A')%nat /\ (length B' <= m)%nat.
Proof.
  intros Sa. induction fuel as [|f IH]; intros M A B s Lf H Lm; [lia|]. cbn [hgcd_iter_loop]. destruct (Nat.leb_spec (m + 1) (length B)) as [Ge|Lt].
  - destruct H as ((RA & TA) & (RB & TB) & HM & LA & LBA & SM).
    destruct (divrem_ok p Hp Pp A B RA RB TA TB ltac:(intros ->; cbn in Ge; lia) ltac:(unfold small in *; lia)) as (Q & T & -> & RQ & RT & TQ & TT & LT & E & LQ). cbn [obind].
    destruct M as [[[M0 M1] M2] M3]. cbn [mapp msize] in HM, SM. destruct HM as (Ea & Eb & Ed). destruct SM as ((R0 & L0) & (R1 & L1) & (R2 & L2) & (R3 & L3)).
    unfold small in Sa.
    destruct (row_ok M2 M3 Q (length a + 1 - length B)) as (C2 & -> & RC2 & EC2 & LC2); auto; unfold small; try lia.
    destruct (row_ok M0 M1 Q (length a + 1 - length B)) as (C0 & -> & RC0 & EC0 & LC0); auto; unfold small; try lia.
    apply IH; [lia| |lia]. split; [split; assumption|]. split; [split; assumption|]. split; [|split; [lia|split; [exact LT|]]].
    + cbn [mapp]. rewrite EC2, EC0. split; [rewrite Ea, E; ring|]. split; [rewrite Eb, E; ring|]. rewrite sg_neg, <- Ed. ring.
    + cbn [msize]. split; [|split; [|split]]; (split; [assumption|lia]).
  - exists M, A, B, s. split; [reflexivity|]. split; [exact H|]. split; [exact Lm|]. lia.
Qed.
Lemma half_lt n : (0 < n)%nat -> (Nat.div n 2 + 1 <= n)%nat.
Proof. intros H. pose proof (Nat.div_lt n 2 H ltac:(lia)). lia. Qed.
Lemma half_bounds n : (2 * Nat.div n 2 <= n < 2 * Nat.div n 2 + 2)%nat.
Proof. pose proof (Nat.div_mod n 2 ltac:(lia)) as E. pose proof (Nat.mod_upper_bound n 2 ltac:(lia)). lia. Qed.
Lemma hgcd_iter_ok fuel a b : okp a -> okp b -> small a -> (length b < length a)%nat -> (length b < fuel)%nat -> hgood a b (hgcd_iter p fuel a b).
Proof.
  intros Oa Ob Sa L Lf. unfold hgcd_iter. destruct (iter_ok a b (Nat.div (length a) 2) Sa fuel mat_one a b true Lf (hstep_one a b Oa Ob L) (half_lt (length a) ltac:(lia)))
    as (M & A & B & s & E & H & LA & LB). exists M, A, B, s. auto.
Qed.

(** rebuilding the full-size pair *)
Lemma rebuild_ok m R s alo blo a3 b3 n c : msize R n -> res alo -> res blo -> (length alo <= m)%nat -> (length blo <= m)%nat -> okp a3 -> okp b3 -> 
  (1 <= n)%nat -> (1 <= m)%nat -> Z.of_nat (m + n) < 2 ^ 62 -> (m + n - 1 <= c)%nat -> (c < m + length a3)%nat -> (m + length b3 <= c)%nat ->
  forall ahi bhi, mapp R ahi bhi (D a3) (D b3) s ->
  exists A B, rebuild p m R s alo blo a3 b3 = (A, B) /\ okp A /\ okp B /\ length A = (m + length a3)%nat /\ (length B <= c)%nat /\
    mapp R (D alo [+] Xp m [*] ahi) (D blo [+] Xp m [*] bhi) (D A) (D B) s.
Proof.
  intros SR Ral Rbl Lal Lbl (Ra3 & Ta3) (Rb3 & Tb3) Hn Hm Hs Hc La3 Lb3 ahi bhi HM. destruct R as [[[R0 R1] R2] R3]. cbn [msize mapp] in *.
  destruct SR as ((Q0 & L0) & (Q1 & L1) & (Q2 & L2) & (Q3 & L3)). destruct HM as (Ea & Eb & Ed).
  assert (Mul : forall r x, res r -> (length r <= n)%nat -> res x -> (length x <= m)%nat -> res (mul_any p r x) /\ D (mul_any p r x) == D r [*] D x /\ (length (mul_any p r x) <= c)%nat).
  { intros r x Rr Lr Rx Lx. destruct (mul_any_ok p Hp r x Rr Rx ltac:(unfold small; lia) ltac:(unfold small; lia)) as (Rm & Em & Lm). split; [exact Rm|]. split; [exact Em|].
    rewrite Lm. destruct r; [lia|]. destruct x; [lia|]. cbn [length] in *. lia. }
  destruct (Mul R2 alo) as (Rt2 & Et2 & Lt2); auto. destruct (Mul R0 blo) as (Rt0 & Et0 & Lt0); auto. destruct (Mul R3 alo) as (Rt3 & Et3 & Lt3); auto. destruct (Mul R1 blo) as (Rt1 & Et1 & Lt1); auto.
  unfold rebuild. set (t2 := mul_any p R2 alo) in *. set (t0 := mul_any p R0 blo) in *. set (t3 := mul_any p R3 alo) in *. set (t1 := mul_any p R1 blo) in *.
  set (b2 := if s then poly_sub p t0 t2 else poly_sub p t2 t0). set (a2 := if s then poly_sub p t3 t1 else poly_sub p t1 t3).
  assert (Hb2 : res b2 /\ D b2 == sg s [*] (D R0 [*] D blo [+] [-] (D R2 [*] D alo)) /\ (length b2 <= c)%nat).
  { unfold b2, sg. destruct s; [destruct (poly_sub_ok p Hp t0 t2 Rt0 Rt2) as (Rx & _ & Ex & Lx)|destruct (poly_sub_ok p Hp t2 t0 Rt2 Rt0) as (Rx & _ & Ex & Lx)]; (split; [exact Rx|]; split; [rewrite Ex, Et0, Et2; ring|lia]). }
  assert (Ha2 : res a2 /\ D a2 == sg s [*] (D R3 [*] D alo [+] [-] (D R1 [*] D blo)) /\ (length a2 <= c)%nat).
  { unfold a2, sg. destruct s; [destruct (poly_sub_ok p Hp t3 t1 Rt3 Rt1) as (Rx & _ & Ex & Lx)|destruct (poly_sub_ok p Hp t1 t3 Rt1 Rt3) as (Rx & _ & Ex & Lx)]; (split; [exact Rx|]; split; [rewrite Ex, Et1, Et3; ring|lia]). }
  clearbody b2 a2. destruct Hb2 as (Rb2 & Eb2 & Lb2), Ha2 as (Ra2 & Ea2 & La2). unfold add_shift.
  assert (Sh : forall l, res l -> res (repeat 0 m ++ l) /\ D (repeat 0 m ++ l) == Xp m [*] D l).
  { intros l Rl. split; [apply Forall_app; split; [apply res_repeat, Hp|exact Rl]|]. rewrite D_app, (D_repeat p Hp), repeat_length. ring. }
  destruct (Sh a3 Ra3) as (RSa & ESa). destruct (Sh b3 Rb3) as (RSb & ESb).
  destruct (poly_add_ok p Hp a2 _ Ra2 RSa) as (RA & TA & EA & LA). destruct (poly_add_ok p Hp b2 _ Rb2 RSb) as (RB & TB & EB & LB).
  set (A := poly_add p a2 (repeat 0 m ++ a3)) in *. set (B := poly_add p b2 (repeat 0 m ++ b3)) in *. clearbody A B. rewrite app_length, repeat_length in LA, LB.
  exists A, B. split; [reflexivity|]. split; [split; assumption|]. split; [split; assumption|]. split; [|split; [lia|]].
  - pose proof (Ln_D p Hp A RA TA) as H. apply (Ln_uniq p Hp (D A)); [exact H|]. pose proof (Ln_D p Hp a3 Ra3 Ta3) as H3. destruct (length a3) as [|k]; [lia|].
    apply (Ln_proper p Hp (Xp m [*] D a3 [+] D a2)); [rewrite EA, ESa; ring|]. apply (Ln_add p Hp _ _ _ c); [apply (Ln_shift p Hp Pp), H3| |lia].
    apply (Le_mono p Hp _ (length a2)); [apply Le_D, Ra2|exact La2].
  - assert (SS : sg s [*] sg s == r1 K) by (unfold sg; destruct s; ring).
    split; [|split; [|exact Ed]].
    + transitivity (sg s [*] sg s [*] D alo [+] Xp m [*] ahi); [rewrite SS; ring|]. rewrite <- Ed at 2. rewrite EA, EB, ESa, ESb, Ea2, Eb2, Ea. ring.
    + transitivity (sg s [*] sg s [*] D blo [+] Xp m [*] bhi); [rewrite SS; ring|]. rewrite <- Ed at 2. rewrite EA, EB, ESa, ESb, Ea2, Eb2, Eb. ring.
Qed.
Lemma mat_entry_ok P Q R S n k l : res P -> res Q -> res R -> res S -> (length P <= n)%nat -> (length R <= n)%nat -> (length Q <= k)%nat -> (length S <= k)%nat ->
  Z.of_nat n < 2 ^ 62 -> Z.of_nat k < 2 ^ 62 -> (n + k - 1 <= l)%nat ->
  let C := mat_entry p P Q R S in res C /\ (length C <= l)%nat /\ D C == D P [*] D Q [+] D R [*] D S.
Proof.
  intros RP RQ RR RS LP LR LQ LS Hn Hk Hl. unfold mat_entry.
  destruct (mul_any_ok p Hp P Q RP RQ ltac:(unfold small; lia) ltac:(unfold small; lia)) as (R1 & E1 & L1).
  destruct (mul_any_ok p Hp R S RR RS ltac:(unfold small; lia) ltac:(unfold small; lia)) as (R2 & E2 & L2).
  assert (L1' : (length (mul_any p P Q) <= l)%nat) by (rewrite L1; destruct P; [lia|]; destruct Q; [lia|]; cbn [length] in *; lia).
  assert (L2' : (length (mul_any p R S) <= l)%nat) by (rewrite L2; destruct R; [lia|]; destruct S; [lia|]; cbn [length] in *; lia).
  clear L1 L2. rewrite <- E1, <- E2. set (x := mul_any p P Q) in *. set (y := mul_any p R S) in *. clearbody x y. cbv zeta.
  destruct x as [|x0 x]; [split; [exact R2|]; split; [exact L2'|cbn [dval]; ring]|]. destruct y as [|y0 y]; [split; [exact R1|]; split; [exact L1'|cbn [dval]; ring]|].
  destruct (poly_add_ok p Hp _ _ R1 R2) as (Ra & Ta & Ea & La). split; [exact Ra|]. split; [lia|exact Ea].
Qed.
Lemma okp_skipn n l : okp l -> okp (skipn n l). Proof. intros [R T]. split; [apply res_skipn, R|apply stripped_skipn, T]. Qed.
Lemma D_split m l : (m <= length l)%nat \/ skipn m l = [] -> D l == D (firstn m l) [+] Xp m [*] D (skipn m l).
Proof.
  intros [H|H]; rewrite <- (firstn_skipn m l) at 1; rewrite D_app, firstn_length.
  - rewrite Nat.min_l by exact H. reflexivity.
  - rewrite H. cbn [dval]. ring.
Qed.
Lemma D_split' m l : D l == D (firstn m l) [+] Xp m [*] D (skipn m l).
Proof. apply D_split. destruct (Nat.le_gt_cases m (length l)) as [H|H]; [left; exact H|right; apply skipn_all2; lia]. Qed.

Theorem hgcd_rec_ok : forall fuel a b, okp a -> okp b -> small a -> (length b < length a)%nat -> (length a < fuel)%nat -> hgood a b (hgcd_rec p fuel a b).
Proof.
  induction fuel as [|f IH]; intros a b Oa Ob Sa L Lf; [lia|]. cbn [hgcd_rec]. unfold hgood at 1. pose proof (half_lt (length a)) as Hh. pose proof (half_bounds (length a)) as Hm. set (m := Nat.div (length a) 2) in *. clearbody m.
  destruct (Nat.ltb_spec (length b) (m + 1)) as [Lt|Ge].
  { exists mat_one, a, b, true. split; [reflexivity|]. split; [apply hstep_one; auto|]. clear - Hh L Lt. lia. }
  assert (Sub : forall x y, okp x -> okp y -> small x -> (length y < length x)%nat -> (length x < f)%nat ->
    hgood x y (if Nat.ltb (length x) hgcd_cutoff then hgcd_iter p f x y else hgcd_rec p f x y)).
  { intros x y Ox Oy Sx Lxy Lxf. destruct (Nat.ltb (length x) hgcd_cutoff); [apply hgcd_iter_ok; auto; lia|apply IH; auto]. }
  clear Hh.
  unfold small in Sa. set (l1 := (length a - m)%nat). assert (LS : length (skipn m a) = l1) by apply skipn_length. assert (El1 : (l1 + m = length a)%nat) by (unfold l1; clear - Hm; lia). clearbody l1.
  destruct (Sub (skipn m a) (skipn m b)) as (R & a3 & b3 & sR & -> & H1 & La3 & Lb3); [apply okp_skipn, Oa|apply okp_skipn, Ob|unfold small; lia|rewrite !skipn_length; lia|lia|].
  cbn [obind]. destruct H1 as (Oa3 & Ob3 & HR & Ll1 & Lab & SR). rewrite LS in *. pose proof (half_bounds l1) as Hm1. set (m1 := Nat.div l1 2) in *. clearbody m1.
  destruct (rebuild_ok m R sR (firstn m a) (firstn m b) a3 b3 (l1 + 1 - length a3) (m + m1) SR) with (ahi := D (skipn m a)) (bhi := D (skipn m b))
    as (a2 & b2 & -> & Oa2 & Ob2 & La2 & Lb2 & HR2); auto; try lia; try (apply res_firstn; [apply Oa || apply Ob]); try (rewrite firstn_length; lia).
  assert (HRf : mapp R (D a) (D b) (D a2) (D b2) sR).
  { destruct R as [[[R0 R1] R2] R3]. cbn [mapp] in *. destruct HR2 as (E1 & E2 & E3). split; [rewrite <- E1; apply D_split'|]. split; [rewrite <- E2; apply D_split'|exact E3]. }
  clear HR2 HR. replace (l1 + 1 - length a3)%nat with (length a + 1 - length a2)%nat in SR by lia.
  destruct (Nat.ltb_spec (length b2) (m + 1)) as [Lt2|Ge2].
  { exists R, a2, b2, sR. split; [reflexivity|]. split; [|lia]. split; [exact Oa2|]. split; [exact Ob2|]. split; [exact HRf|]. split; [lia|]. split; [lia|exact SR]. }
  destruct Oa2 as [Ra2 Ta2], Ob2 as [Rb2 Tb2].
  destruct (divrem_ok p Hp Pp a2 b2 Ra2 Rb2 Ta2 Tb2 ltac:(intros ->; cbn in Ge2; lia) ltac:(unfold small in *; lia)) as (q & d & -> & Rq & Rd & Tq & Td & Ld & Eq & Lq).
  cbn [obind]. set (k := (2 * m + 1 - length b2)%nat). assert (Ek : (k + length b2 = 2 * m + 1)%nat) by (unfold k; clear - Lb2 Hm Hm1 El1 L Ge; lia). clearbody k.
  set (l2 := (length b2 - k)%nat). assert (LS2 : length (skipn k b2) = l2) by apply skipn_length. assert (El2 : (l2 + k = length b2)%nat) by (unfold l2; clear - Ek Ge2; lia). clearbody l2.
  destruct (Sub (skipn k b2) (skipn k d)) as (SS & a3' & b3' & sS & -> & H2 & La3' & Lb3'); [apply okp_skipn; split; assumption|apply okp_skipn; split; assumption|unfold small; lia|rewrite !skipn_length; lia|lia|].
  cbn [obind]. destruct H2 as (Oa3' & Ob3' & HS & Ll2 & Lab' & SSz). rewrite LS2 in *. pose proof (half_bounds l2) as Hm2'. set (m2 := Nat.div l2 2) in *. clearbody m2.
  assert (Hm2 : (m2 + m + 1 = length b2)%nat).
  { clear - Hm2' Ek El2 Ge2. lia. }
  clear Hm2'.
  destruct (rebuild_ok k SS sS (firstn k b2) (firstn k d) a3' b3' (l2 + 1 - length a3') (k + m2) SSz) with (ahi := D (skipn k b2)) (bhi := D (skipn k d))
    as (A & B & -> & OA & OB & LA & LB & HS2); auto; try lia; try (apply res_firstn; assumption); try (rewrite firstn_length; lia).
  assert (HSf : mapp SS (D b2) (D d) (D A) (D B) sS).
  { destruct SS as [[[S0 S1] S2] S3]. cbn [mapp] in *. destruct HS2 as (E1 & E2 & E3). split; [rewrite <- E1; apply D_split'|]. split; [rewrite <- E2; apply D_split'|exact E3]. }
  clear HS2 HS. destruct SS as [[[S0 S1] S2] S3]. destruct R as [[[R0 R1] R2] R3]. cbn [mapp msize] in HRf, HSf, SSz, SR.
  destruct HRf as (E1 & E2 & E3), HSf as (F1 & F2 & F3).
  destruct SR as ((RR0 & L0) & (RR1 & L1) & (RR2 & L2) & (RR3 & L3)). destruct SSz as ((RS0 & M0) & (RS1 & M1) & (RS2 & M2) & (RS3 & M3)).
  destruct (madd_ok S2 S0 q (length a2 + 1 - length A)) as (C0 & G0 & K0); auto; try (unfold small; lia); [lia..|].
  destruct (madd_ok S3 S1 q (length a2 + 1 - length A)) as (C1 & G1 & K1); auto; try (unfold small; lia); [lia..|]. cbv zeta in C0, G0, K0, C1, G1, K1.
  set (S0' := match q with [] => S2 | _ :: _ => _ end) in *. set (S1' := match q with [] => S3 | _ :: _ => _ end) in *. clearbody S0' S1'.
  set (nR := (length a + 1 - length a2)%nat) in *. set (nS := (length a2 + 1 - length A)%nat) in *. set (nl := (length a + 1 - length A)%nat).
  assert (Hl : (nR + nS - 1 <= nl)%nat) by (unfold nR, nS, nl; lia).
  assert (HnR : Z.of_nat nR < 2 ^ 62) by (unfold nR; lia). assert (HnS : Z.of_nat nS < 2 ^ 62) by (unfold nS; lia).
  assert (M0' : (length S0 <= nS)%nat) by (unfold nS; lia). assert (M1' : (length S1 <= nS)%nat) by (unfold nS; lia).
  destruct (mat_entry_ok R0 S0' R1 S0 nR nS nl) as (T0 & U0 & V0); auto.
  destruct (mat_entry_ok R0 S1' R1 S1 nR nS nl) as (T1 & U1 & V1); auto.
  destruct (mat_entry_ok R2 S0' R3 S0 nR nS nl) as (T2 & U2 & V2); auto.
  destruct (mat_entry_ok R2 S1' R3 S1 nR nS nl) as (T3 & U3 & V3); auto.
  eexists _, A, B, _. split; [reflexivity|]. split; [|lia]. split; [exact OA|]. split; [exact OB|]. split; [|split; [lia|split; [lia|]]].
  - unfold mat_mul, mapp. rewrite V0, V1, V2, V3, G0, G1. rewrite E1, E2, Eq, F1, F2. split; [ring|]. split; [ring|].
    transitivity ([-] ((D R0 [*] D R3 [+] [-] (D R1 [*] D R2)) [*] (D S0 [*] D S3 [+] [-] (D S1 [*] D S2)))); [ring|]. rewrite E3, F3. unfold sg. destruct sR, sS; cbn [negb Bool.eqb]; ring.
  - unfold mat_mul, msize. fold nl. split; [|split; [|split]]; split; assumption.
Qed.
Lemma hstep_gcd a b M A B s g : hstep a b M A B s -> is_gcd K (D A) (D B) g -> is_gcd K (D a) (D b) g.
Proof.
  intros (_ & _ & HM & _) G. destruct M as [[[M0 M1] M2] M3]. cbn [mapp] in HM. destruct HM as (E1 & E2 & E3).
  assert (SS : sg s [*] sg s == r1 K) by (unfold sg; destruct s; ring).
  apply (gcd_lin g (D a) (D b) (D A) (D B) (D M0) (D M1) (D M2) (D M3) (sg s [*] D M3) ([-] (sg s [*] D M1)) ([-] (sg s [*] D M2)) (sg s [*] D M0)); auto.
  - transitivity (sg s [*] sg s [*] D A); [rewrite SS; ring|]. rewrite <- E3 at 2. rewrite E1, E2. ring.
  - transitivity (sg s [*] sg s [*] D B); [rewrite SS; ring|]. rewrite <- E3 at 2. rewrite E1, E2. ring.
Qed.
Lemma hgcd_main_ok : forall fuel G J, okp G -> okp J -> small G -> small J -> (length J + 1 < fuel)%nat -> gcd_good G J (hgcd_main p fuel G J).
Proof.
  induction fuel as [|f IH]; intros G J OG OJ SG SJ L; [lia|]. cbn [hgcd_main]. destruct J as [|j J0]; [|set (J := j :: J0) in *].
  - exists G. split; [reflexivity|]. split; [exact OG|]. split; [apply gcd_0|auto].
  - destruct OG as [RG TG], OJ as [RJ TJ].
    destruct (divrem_ok p Hp Pp G J RG RJ TG TJ ltac:(discriminate) SG) as (Q & R & -> & RQ & RR & TQ & TR & LR & E & _). cbn [obind].
    assert (Red : forall o, gcd_good J R o -> gcd_good G J o).
    { intros o (g & Eg & Og & Gg & Ng). exists g. split; [exact Eg|]. split; [exact Og|]. split; [apply (gcd_div _ _ _ _ _ E), Gg|]. intros Eg'. destruct (Ng Eg') as [C _]. discriminate. }
    destruct R as [|r R0]; [|set (R := r :: R0) in *].
    + apply Red. exists J. split; [reflexivity|]. split; [split; assumption|]. split; [apply gcd_0|]. discriminate.
    + apply Red. destruct (Nat.ltb (length J) gcd_cutoff); [apply euclid_ok; try (split; assumption); auto; [unfold small in *; lia|lia]|].
      destruct (hgcd_rec_ok f J R ltac:(split; assumption) ltac:(split; assumption) SJ LR ltac:(lia)) as (M & G' & J' & s & -> & H & LG & LJ). cbn [obind].
      destruct H as (OG' & OJ' & H). pose proof H as (_ & LG' & LJG & _). pose proof (half_lt (length J) ltac:(unfold J; cbn; lia)).
      destruct (IH G' J' OG' OJ') as (g & Eg & Og & Gg & Ng); [unfold small in *; lia|unfold small in *; lia|lia|]. exists g. split; [exact Eg|]. split; [exact Og|].
      split; [apply (hstep_gcd J R M G' J' s (D g)); [split; [exact OG'|split; [exact OJ'|exact H]]|exact Gg]|]. intros Eg'. destruct (Ng Eg') as [C _]. subst G'. cbn in LG. lia.
Qed.
Theorem d_gcd_ok fuel A B : okp A -> okp B -> small A -> small B -> (length A + length B + 1 < fuel)%nat -> gcd_good A B (d_gcd p fuel A B).
Proof.
  intros OA OB SA SB Lf. unfold d_gcd.
  assert (Main : forall a b, okp a -> okp b -> small a -> small b -> (length a + 1 < fuel)%nat -> (length b + 1 < fuel)%nat ->
     gcd_good a b (match b with [] => Ok a | _ => if Nat.ltb (length b) gcd_cutoff then gcd_euclid p fuel a b else gcd_hgcd p fuel a b end)).
  { intros a b Oa Ob Sa Sb La Lb. destruct b as [|b0 b']; [exists a; split; [reflexivity|]; split; [exact Oa|]; split; [apply gcd_0|auto]|]. set (b := b0 :: b') in *.
    destruct (Nat.ltb (length b) gcd_cutoff); [apply euclid_ok; auto; lia|]. unfold gcd_hgcd. destruct Oa as [Ra Ta], Ob as [Rb Tb].
    destruct (divrem_ok p Hp Pp a b Ra Rb Ta Tb ltac:(discriminate) Sa) as (Q & R & -> & RQ & RR & TQ & TR & LR & E & _). cbn [obind].
    assert (Red : forall o, gcd_good b R o -> gcd_good a b o).
    { intros o (g & Eg & Og & Gg & Ng). exists g. split; [exact Eg|]. split; [exact Og|]. split; [apply (gcd_div _ _ _ _ _ E), Gg|]. intros Eg'. destruct (Ng Eg') as [C _]. discriminate. }
    destruct R as [|r R0]; [apply Red; exists b; split; [reflexivity|]; split; [split; assumption|]; split; [apply gcd_0|discriminate]|]. set (R := r :: R0) in *. apply Red.
    destruct (hgcd_rec_ok fuel b R ltac:(split; assumption) ltac:(split; assumption) Sb LR ltac:(lia)) as (M & G' & J' & s & -> & H & LG & LJ). cbn [obind].
    destruct H as (OG' & OJ' & H). pose proof H as (_ & LG' & LJG & _).
    destruct (hgcd_main_ok fuel G' J' OG' OJ') as (g & Eg & Og & Gg & Ng); [unfold small in *; lia|unfold small in *; lia|lia|]. exists g. split; [exact Eg|]. split; [exact Og|].
    split; [apply (hstep_gcd b R M G' J' s (D g)); [split; [exact OG'|split; [exact OJ'|exact H]]|exact Gg]|]. intros Eg'. destruct (Ng Eg') as [C _]. subst G'. cbn in LG. lia. }
  destruct (Nat.ltb (length A) (length B)).
  - destruct (Main B A OB OA SB SA ltac:(lia) ltac:(lia)) as (g & Eg & Og & (G1 & G2 & G3) & Ng). exists g. split; [exact Eg|]. split; [exact Og|]. split; [split; [exact G2|]; split; [exact G1|]; intros d Da Db; apply G3; auto|]. intros C. destruct (Ng C). auto.
  - apply Main; auto; lia.
Qed.
End DG.
