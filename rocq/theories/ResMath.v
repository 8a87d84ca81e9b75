(** * Subresultants as polynomial determinants: the relations behind the subresultant chain. *)
From Coq Require Import Ring_theory Ring Setoid Morphisms Lia Arith.
From Verif Require Import Prelude Coef Spec SpecProofs SpecOps SpecOpsProofs GcdDom GcdPoly GcdMath PolyMulProofs ResSpec ResDet.

Section RM.
Context {C : Type} (K : coefs C) (HD : domain_ok K) (HG : cgcd_ok K).
Let HK : ring_ok K := domain_ring K HD.
Local Existing Instance HK.
Add Ring Kring : (ring_laws K HK).
Add Ring Rring : (rring K HK) (setoid (req_equiv K) (rring_ext K HK)).
Notation R := (rpoly C).
Notation req := (req K). Notation rmul := (rmul K). Notation rpow := (rpow K).
Local Infix "==" := req (at level 70).
Notation r0 := (@Spec.r0 C). Notation r1 := (Spec.r1 K).
Context (v : var).
Notation free := (vfree K v).
Notation shifts := (shifts K v).
Notation m1 := (ropp K r1).
Notation rows_eq := (Forall2 req).

(** coefficient of v^n, degree below n *)
Definition cf (n : nat) (p : R) : R := rcoeff K v (N.of_nat n) p.
Definition dl (n : nat) (p : R) : Prop := deg_lt K p v (N.of_nat n).
Definition X (n : nat) : R := rmono K [(v, N.of_nat n)].

#[global] Instance rpow_proper : Proper (req ==> eq ==> req) rpow.
Proof. intros p q E n n' <-. induction n as [|n IH]; cbn [Spec.rpow]; [reflexivity|]. rewrite IH, E. reflexivity. Qed.
#[global] Instance cf_proper n : Proper (req ==> req) (cf n).
Proof. intros p q E. apply (rcoeff_proper K HK), E. Qed.
#[global] Instance dl_proper n : Proper (req ==> iff) (dl n).
Proof. intros p q E. unfold dl. rewrite E. reflexivity. Qed.
Lemma cf_free n p : free (cf n p). Proof. apply (rcoeff_free K HD). Qed.
Lemma cf_lin n : lin K v (cf n).
Proof.
  split; [intros p q E; apply (rcoeff_proper K HK), E|]. intros s p q Fs. unfold cf.
  rewrite (rcoeff_add K). transitivity (radd (rcoeff K v (N.of_nat n) (rmul p s)) (rcoeff K v (N.of_nat n) q)).
  { apply (radd_proper K HK); [|reflexivity]. apply (rcoeff_proper K HK). ring. }
  rewrite (rcoeff_mul_free K HD) by exact Fs. ring.
Qed.
Lemma id_lin : lin K v (fun p => p).
Proof. split; [intros p q E; exact E|]. intros. reflexivity. Qed.
Lemma cf_scale n s p : free s -> cf n (rmul s p) == rmul s (cf n p).
Proof.
  intros Fs. transitivity (cf n (rmul p s)); [apply cf_proper; ring|]. unfold cf. rewrite (rcoeff_mul_free K HD) by exact Fs. ring.
Qed.
Lemma cf_dl n k p : dl n p -> n <= k -> cf k p == r0.
Proof. intros H L. apply (rcoeff_lt K HD). intros m Hm. specialize (H m Hm). lia. Qed.
Lemma dl_weak n k p : n <= k -> dl n p -> dl k p.
Proof. intros L H m Hm. specialize (H m Hm). lia. Qed.
Lemma coef_X n p m : coef K (rmul (X n) p) m = if N.leb (N.of_nat n) (exp m v) then coef K p ((v, (exp m v - N.of_nat n)%N) :: mdrop v m) else c0 K.
Proof. rewrite <- (coef_shift K HK). assert (E : rmul (X n) p == rmul p (rmono K [(v, N.of_nat n)])) by (unfold X; ring). apply E. Qed.
Lemma cf_X n k p : cf (n + k) (rmul (X n) p) == cf k p.
Proof.
  intros m. unfold cf. rewrite !(coef_rcoeff K HK). destruct (N.eqb_spec (exp m v) 0) as [E|E]; [|reflexivity].
  rewrite coef_X. cbn [exp]. rewrite N.eqb_refl, exp_mdrop, N.eqb_refl.
  destruct (N.leb_spec (N.of_nat n) (N.of_nat (n + k) + 0)) as [L|L]; [|lia].
  apply (coef_proper K HK). intros w. cbn [exp mdrop filter fst]. rewrite N.eqb_refl. cbn [negb]. fold (mdrop v (mdrop v m)). rewrite !exp_mdrop.
  destruct (N.eqb_spec w v) as [->|n0]; [rewrite N.eqb_refl; lia|]. destruct (N.eqb_spec v w); [congruence|]. lia.
Qed.
Lemma dl_X n k p : dl k p -> dl (n + k) (rmul (X n) p).
Proof.
  intros H m Hm. rewrite coef_X in Hm. destruct (N.leb_spec (N.of_nat n) (exp m v)) as [L|L]; [|congruence].
  specialize (H _ Hm). cbn [exp] in H. rewrite N.eqb_refl, exp_mdrop, N.eqb_refl in H. lia.
Qed.
Lemma dl_0 n : dl n r0. Proof. intros m Hm. exfalso. apply Hm. reflexivity. Qed.
Lemma dl_add n p q : dl n p -> dl n q -> dl n (radd p q).
Proof. intros A B m Hm. apply (coef_add_supp K HK) in Hm as [Hm|Hm]; [apply A|apply B]; exact Hm. Qed.
Lemma dl_opp n p : dl n p -> dl n (ropp K p).
Proof. intros A m Hm. apply A, (coef_opp_supp K HK), Hm. Qed.
Lemma dl_scale n s p : free s -> dl n p -> dl n (rmul s p).
Proof.
  intros Fs A m Hm. apply (coef_mul_supp K HK) in Hm as (a & b & Ha & Hb & E). specialize (A _ Hb). specialize (Fs _ Ha).
  rewrite <- (E v), exp_app. lia.
Qed.
Lemma dl_1_free p : dl 1 p <-> free p.
Proof.
  split; intros H m Hm; specialize (H m Hm); [|lia]. change (N.of_nat 1) with 1%N in H. lia.
Qed.
Lemma X_0 p : rmul (X 0) p == p.
Proof. unfold X, rmono. transitivity (rmul r1 p); [|ring]. apply (rmul_proper K HK); [|reflexivity]. apply (req_single K); [|reflexivity]. intros w. cbn [exp]. destruct (N.eqb v w); reflexivity. Qed.
Lemma X_mul n k : rmul (X n) (X k) == X (n + k).
Proof.
  unfold X. rewrite <- (rmono_app K HK). apply (req_single K); [|reflexivity]. intros w. cbn [app exp]. destruct (N.eqb v w); lia.
Qed.

(** ** lists of shifted rows *)
Lemma shifts_length n P : length (shifts n P) = n.
Proof. induction n as [|n IH]; cbn [ResSpec.shifts length]; [reflexivity|]. f_equal. exact IH. Qed.
Lemma shifts_eq n P Q : P == Q -> rows_eq (shifts n P) (shifts n Q).
Proof.
  intros E. induction n as [|n IH]; cbn [ResSpec.shifts]; constructor; [|exact IH]. rewrite E. reflexivity.
Qed.
Lemma shifts_scale n s P : rows_eq (shifts n (rmul s P)) (map (rmul s) (shifts n P)).
Proof. induction n as [|n IH]; cbn [ResSpec.shifts map]; constructor; [ring|exact IH]. Qed.
Lemma shifts_in n P k : k < n -> In (rmul (X k) P) (shifts n P).
Proof.
  induction n as [|n IH]; intros L; [lia|]. cbn [ResSpec.shifts]. destruct (Nat.eq_dec k n) as [->|Hk]; [left; reflexivity|right; apply IH; lia].
Qed.
Lemma shifts_dl n P d k : dl d P -> n + d <= Datatypes.S k -> Forall (dl k) (shifts n P).
Proof.
  intros H. induction n as [|n IH]; intros L; cbn [ResSpec.shifts]; constructor; [|apply IH; lia].
  apply (dl_weak (n + d)); [lia|]. apply dl_X, H.
Qed.
Lemma shifts_ideal gs n P : ideal K gs P -> Forall (ideal K gs) (shifts n P).
Proof. intros H. induction n as [|n IH]; cbn [ResSpec.shifts]; constructor; [apply ideal_mul, H|exact IH]. Qed.

(** ** the polynomial determinant with last column the row itself *)
Definition col (i k : nat) : R -> R := match k with O => fun p => p | Datatypes.S _ => cf (i + k) end.
Fixpoint cols (i k : nat) : list (R -> R) := match k with O => [] | Datatypes.S k' => col i k' :: cols i k' end.
Definition DPn (i k : nat) (rows : list R) : R := det_by K (cols i k) rows.
Definition DP (i : nat) (rows : list R) : R := DPn i (length rows) rows.
Lemma cols_lin i k : Forall (lin K v) (cols i k).
Proof. induction k as [|k IH]; cbn [cols]; constructor; [|exact IH]. destruct k; cbn [col]; [apply id_lin|apply cf_lin]. Qed.
Lemma DP_al i k : alternating K v (DPn i k).
Proof. apply (al_det K HD v), cols_lin. Qed.
Lemma DP_len i k rows : length rows = k -> DP i rows = DPn i k rows.
Proof. intros <-. reflexivity. Qed.
Lemma DP_eq i l l' : rows_eq l l' -> DP i l == DP i l'.
Proof.
  intros E. unfold DP. assert (L : length l = length l') by (clear -E; induction E; cbn [length]; congruence). rewrite L. apply (al_proper K v _ (DP_al i (length l')) _ _ E).
Qed.
Lemma DP_one i p : DP i [p] == p.
Proof. unfold DP, DPn. cbn [length cols col det_by expand]. ring. Qed.
Lemma DP_peel i p rest : rest <> [] -> Forall (dl (i + length rest)) rest -> DP i (p :: rest) == rmul (cf (i + length rest) p) (DP i rest).
Proof.
  intros Ne F. unfold DP, DPn. cbn [length cols det_by expand]. destruct rest as [|q rest]; [congruence|]. cbn [length col].
  set (n := i + Datatypes.S (length rest)) in *. change (i + length (q :: rest)) with n in F |- *.
  rewrite (expand_dead K HD _ _ (q :: rest)); [ring|]. intros x Hx. rewrite Forall_forall in F. apply (cf_dl n); [apply F, Hx|lia].
Qed.
(** peeling k shifts of [B], of degree r *)
Lemma DP_peels i n k B r rest : dl (Datatypes.S r) B -> length rest + i = r -> Forall (dl (n + r)) rest -> 1 <= n + length rest ->
  DP i (shifts (k + n) B ++ rest) == rmul (rpow (cf r B) k) (DP i (shifts n B ++ rest)).
Proof.
  intros HB L F Hn. induction k as [|k IH]; cbn [Nat.add Spec.rpow]; [ring|]. cbn [ResSpec.shifts app].
  assert (E : i + length (shifts (k + n) B ++ rest) = k + n + r) by (rewrite app_length, shifts_length; lia).
  rewrite DP_peel.
  - rewrite E. change (rmono K [(v, N.of_nat (k + n))]) with (X (k + n)). rewrite cf_X, IH. ring.
  - intros X0. apply (f_equal (@length R)) in X0. rewrite app_length, shifts_length in X0. cbn [length] in X0. lia.
  - rewrite E. apply Forall_app. split.
    + apply (shifts_dl (k + n) B (Datatypes.S r)); [exact HB|lia].
    + eapply Forall_impl; [|exact F]. intros x. apply dl_weak. lia.
Qed.

(** the multiples of [B] by a polynomial of degree below [d] are combinations of shifts of [B] *)
Lemma span_in l l' q : incl l l' -> span K v l q -> span K v l' q.
Proof. intros I. induction 1 as [q E|q s r q' Ir Fs _ IH E]; [apply span_0, E|apply (span_add K v l' q s r q'); auto]. Qed.
Lemma span_quo d Q B s M : dl d Q -> s + d <= M -> span K v (shifts M B) (rmul (X s) (rmul Q B)).
Proof.
  intros H L. apply (rcoeff_sum K HK v) in H.
  assert (G : forall k, s + k <= M -> forall q, q == rmul (X s) (rmul (rbig k (fun d => rmul (rcoeff K v d Q) (rmono K [(v, d)]))) B) -> span K v (shifts M B) q).
  { induction k as [|k IH]; intros Lk q Eq; cbn [rbig] in Eq.
    - apply span_0. rewrite Eq. change (@nil (smono * C)) with r0. ring.
    - apply (span_add K v _ q (cf k Q) (rmul (X (s + k)) B) (rmul (X s) (rmul (rbig k (fun d => rmul (rcoeff K v d Q) (rmono K [(v, d)]))) B))).
      + apply shifts_in. lia.
      + apply cf_free.
      + apply IH; [lia|reflexivity].
      + rewrite Eq, <- X_mul. change (rmono K [(v, N.of_nat k)]) with (X k). fold (cf k Q). unfold cf. ring. }
  apply (G d L). rewrite <- H. reflexivity.
Qed.
Lemma DP_reduce i k n : forall pre d Q B Cc M post, dl d Q -> n + d <= Datatypes.S M ->
  DPn i k (pre ++ shifts n (radd (rmul Q B) Cc) ++ shifts M B ++ post) == DPn i k (pre ++ shifts n Cc ++ shifts M B ++ post).
Proof.
  induction n as [|n IH]; intros pre d Q B Cc M post H L; cbn [ResSpec.shifts app]; [reflexivity|].
  change (rmono K [(v, N.of_nat n)]) with (X n).
  transitivity (DPn i k (pre ++ radd (rmul (X n) (rmul Q B)) (rmul (X n) Cc) :: shifts n (radd (rmul Q B) Cc) ++ shifts M B ++ post)).
  { apply (al_mid K v _ (DP_al i k)). ring. }
  rewrite (al_add_span K HD v _ (DP_al i k)).
  - replace (pre ++ rmul (X n) Cc :: shifts n (radd (rmul Q B) Cc) ++ shifts M B ++ post) with ((pre ++ [rmul (X n) Cc]) ++ shifts n (radd (rmul Q B) Cc) ++ shifts M B ++ post) by (rewrite <- app_assoc; reflexivity).
    rewrite (IH _ d) by (assumption || lia). rewrite <- app_assoc. reflexivity.
  - apply (span_in (shifts M B)); [intros x Hx; apply in_or_app; right; apply in_or_app; left; exact Hx|]. apply (span_quo d); [exact H|lia].
Qed.
Lemma rpow_1 n : rpow r1 n == r1.
Proof. induction n as [|n IH]; cbn [Spec.rpow]; [reflexivity|]. rewrite IH. ring. Qed.
Lemma rpow_mulp p q n : rpow (rmul p q) n == rmul (rpow p n) (rpow q n).
Proof. induction n as [|n IH]; cbn [Spec.rpow]; [ring|]. rewrite IH. ring. Qed.
Lemma rpow_rpow p n k : rpow (rpow p n) k == rpow p (n * k).
Proof.
  induction k as [|k IH]; [rewrite Nat.mul_0_r; reflexivity|]. cbn [Spec.rpow]. rewrite Nat.mul_succ_r, (rpow_add K HK), IH. ring.
Qed.
Lemma rpow_m1_even n : rpow m1 (n + n) == r1.
Proof. rewrite (rpow_add K HK), <- rpow_mulp. transitivity (rpow r1 n); [apply rpow_proper; [ring|reflexivity]|apply rpow_1]. Qed.
Lemma rpow_free_ p n : free p -> free (rpow p n).
Proof. intros F. induction n as [|n IH]; cbn [Spec.rpow]; [apply (vfree_const K)|apply (vfree_mul K HD); assumption]. Qed.
Lemma rpow_nz_ p n : ~ p == r0 -> ~ rpow p n == r0.
Proof.
  intros Np. induction n as [|n IH]; cbn [Spec.rpow].
  - intros E. apply (domain_nontrivial K HD). symmetry. apply (rconst_inj K HD). rewrite E. apply (rconst_0 K HD).
  - intros E. apply (rintegral K HD HG) in E as [E|E]; contradiction.
Qed.
End RM.
