(** * The Bezout path: the determinant of the Bezout matrix is the 0-th subresultant. *)
From Coq Require Import Ring_theory Ring Setoid Morphisms Lia.
From Verif Require Import Prelude Coef Spec SpecProofs SpecOps SpecOpsProofs PolyMulProofs GcdDom GcdPoly GcdMath ResSpec ResDet ResMath ResChain ResSyl.

Section RB.
Context {C : Type} (K : coefs C) (HD : domain_ok K) (HG : cgcd_ok K) (v : var).
Let HK : ring_ok K := domain_ring K HD.
Local Existing Instance HK.
Add Ring Kring : (ring_laws K HK).
Add Ring Rring : (rring K HK) (setoid (req_equiv K) (rring_ext K HK)).
Notation R := (rpoly C).
Notation req := (req K). Notation rmul := (rmul K). Notation rpow := (rpow K).
Local Infix "==" := req (at level 70).
Notation r0 := (@Spec.r0 C). Notation r1 := (Spec.r1 K).
Notation free := (vfree K v).
Notation cf := (cf K v). Notation dl := (dl K v). Notation X := (X K v). Notation m1 := (ropp K r1).
Notation shifts := (shifts K v). Notation DP := (DP K v). Notation DPn := (DPn K v).
Local Existing Instance rpow_proper.
Local Existing Instance cf_proper.
Local Existing Instance dl_proper.

(** sum over k < c of v^(e-lo-k) * coefficient (a-lo-k) of P *)
Fixpoint bsum (P : R) (a e lo c : nat) : R :=
  match c with O => r0 | Datatypes.S c' => radd (rmul (X (e - lo)) (cf (a - lo) P)) (bsum P a e (lo + 1) c') end.
Lemma bsum_X s P a e c : forall lo, lo + c <= Datatypes.S e -> rmul (X s) (bsum P a e lo c) == bsum P a (e + s) lo c.
Proof.
  induction c as [|c IH]; intros lo H; cbn [bsum]; [ring|]. rewrite <- IH by lia. replace (e + s - lo) with (s + (e - lo)) by lia. rewrite <- (X_mul K HD). ring.
Qed.
Lemma bsum_app P a e c2 c1 : forall lo, bsum P a e lo (c1 + c2) == radd (bsum P a e lo c1) (bsum P a e (lo + c1) c2).
Proof.
  induction c1 as [|c1 IH]; intros lo; cbn [bsum Nat.add]; [rewrite Nat.add_0_r; ring|]. rewrite IH. replace (lo + Datatypes.S c1) with (lo + 1 + c1) by lia. ring.
Qed.
Lemma bsum_S P a e c : forall lo, bsum P (a + 1) (e + 1) (lo + 1) c = bsum P a e lo c.
Proof. induction c as [|c IH]; intros lo; cbn [bsum]; [reflexivity|]. rewrite IH. replace (e + 1 - (lo + 1)) with (e - lo) by lia. replace (a + 1 - (lo + 1)) with (a - lo) by lia. reflexivity. Qed.
Lemma bsum_1 P a i c : 1 <= i -> bsum P (a + 1) i 1 c = bsum P a (i - 1) 0 c.
Proof. intros H. pose proof (bsum_S P a (i - 1) c 0) as E. replace (i - 1 + 1) with i in E by lia. exact E. Qed.
Lemma bsum_all P n : dl (Datatypes.S n) P -> bsum P n n 0 (Datatypes.S n) == P.
Proof.
  intros H. apply (rcoeff_sum K HK v) in H. rewrite H at 2. clear H.
  assert (G : forall c lo, lo + c = Datatypes.S n -> bsum P n n lo c == rbig c (fun d => rmul (rcoeff K v d P) (rmono K [(v, d)]))).
  { induction c as [|c IH]; intros lo E; cbn [bsum rbig]; [reflexivity|]. rewrite (IH (lo + 1)) by lia. replace (n - lo) with c by lia.
    change (rmono K [(v, N.of_nat c)]) with (X c). unfold ResMath.cf. ring. }
  apply (G (Datatypes.S n) 0). lia.
Qed.
Lemma bsum_dl P a e c : forall lo, lo + c <= Datatypes.S e -> dl (Datatypes.S (e - lo)) (bsum P a e lo c).
Proof.
  induction c as [|c IH]; intros lo H; cbn [bsum]; [apply dl_0|]. apply (dl_add K HD).
  - replace (Datatypes.S (e - lo)) with (e - lo + 1) by lia. apply (dl_X K HD v (e - lo) 1). apply (dl_1_free K v), (cf_free K HD).
  - apply (dl_weak K v (Datatypes.S (e - (lo + 1)))); [lia|]. apply IH. lia.
Qed.
Lemma dl_mul a b p q : dl (Datatypes.S a) p -> dl (Datatypes.S b) q -> dl (Datatypes.S (a + b)) (rmul p q).
Proof.
  intros H1 H2. intros m Hm. assert (L1 : deg_le K p v (N.of_nat a)) by (intros x Hx; specialize (H1 x Hx); lia).
  assert (L2 : deg_le K q v (N.of_nat b)) by (intros x Hx; specialize (H2 x Hx); lia).
  pose proof (deg_le_mul K HD p q v _ _ L1 L2 m Hm). lia.
Qed.
Lemma span_app l q q' : span K v l q -> span K v l q' -> span K v l (radd q q').
Proof.
  intros H H'. induction H as [q E|q s r q1 I Fs _ IH E].
  - destruct H' as [q' E'|q' s r q2 I Fs H2 E']; [apply span_0; rewrite E, E'; ring|]. apply (span_add K v l _ s r q2 I Fs H2). rewrite E, E'. ring.
  - apply (span_add K v l _ s r (radd q1 q') I Fs IH). rewrite E. ring.
Qed.

Section B.
Context (F G : R) (n m : nat) (HF : dl (Datatypes.S n) F) (HGG : dl (Datatypes.S m) G) (Hnm : m <= n).
Definition bf1 i := bsum G m n i (m + 1 - i).
Definition bf3 i := bsum F n n i (n + 1 - i).
Definition bf2 i := bsum F (n + 1) i 1 i.
Definition bf4 i := bsum G (m + 1) i 1 i.
(** the polynomial of the row of index m-i *)
Definition bez_poly i : R := rsub K (rmul (bf1 i) (bf2 i)) (rmul (bf3 i) (bf4 i)).
Lemma bez_F i : 1 <= i <= m -> F == radd (rmul (X (n + 1 - i)) (bf2 i)) (bf3 i).
Proof.
  intros Hi. rewrite <- (bsum_all F n HF) at 1. replace (Datatypes.S n) with (i + (n + 1 - i)) by lia. rewrite bsum_app. cbn [Nat.add]. fold (bf3 i).
  unfold bf2. rewrite bsum_1 by lia. rewrite bsum_X by lia. replace (i - 1 + (n + 1 - i)) with n by lia. reflexivity.
Qed.
Lemma bez_G i : 1 <= i <= m -> rmul (X (n - m)) G == radd (rmul (X (n + 1 - i)) (bf4 i)) (bf1 i).
Proof.
  intros Hi. rewrite <- (bsum_all G m HGG) at 1. rewrite bsum_X by lia. replace (m + (n - m)) with n by lia. replace (Datatypes.S m) with (i + (m + 1 - i)) by lia. rewrite bsum_app. cbn [Nat.add]. fold (bf1 i).
  unfold bf4. rewrite bsum_1 by lia. rewrite bsum_X by lia. replace (i - 1 + (n + 1 - i)) with n by lia. reflexivity.
Qed.
Lemma bez_poly_eq i : 1 <= i <= m -> bez_poly i == rsub K (rmul (rmul (X (n - m)) G) (bf2 i)) (rmul F (bf4 i)).
Proof.
  intros Hi. unfold bez_poly, rsub. rewrite (bez_G i Hi). pose proof (bez_F i Hi) as E. transitivity (radd (rmul (radd (rmul (X (n + 1 - i)) (bf4 i)) (bf1 i)) (bf2 i))
    (ropp K (rmul (radd (rmul (X (n + 1 - i)) (bf2 i)) (bf3 i)) (bf4 i)))); [ring|]. rewrite <- E. reflexivity.
Qed.
Lemma bez_poly_dl i : 1 <= i <= m -> dl n (bez_poly i).
Proof.
  intros Hi. unfold bez_poly, rsub. replace n with (Datatypes.S ((n - i) + (i - 1))) by lia.
  assert (D2 : forall P a, dl (Datatypes.S (i - 1)) (bsum P a i 1 i)) by (intros; apply bsum_dl; lia).
  apply (dl_add K HD); [|apply (dl_opp K HD)]; apply dl_mul; try apply D2; apply bsum_dl; lia.
Qed.
Notation g := (cf m G).
Lemma bez_poly_span i : 1 <= i <= m -> exists q, span K v (shifts (i - 1) F ++ shifts n G) q /\ bez_poly i == radd q (rmul (ropp K g) (rmul (X (i - 1)) F)).
Proof.
  intros Hi. set (f4' := bsum G m (i - 1) 1 (i - 1)).
  assert (E4 : bf4 i == radd (rmul (X (i - 1)) g) f4').
  { unfold bf4, f4'. rewrite bsum_1 by lia. replace i with (Datatypes.S (i - 1)) at 2 by lia. cbn [bsum Nat.add].
    rewrite !Nat.sub_0_r. reflexivity. }
  assert (D4 : dl (i - 1) f4').
  { unfold f4'. destruct (Nat.eq_dec i 1) as [->|Hn]; [apply dl_0|]. replace (i - 1) with (Datatypes.S (i - 1 - 1)) at 1 by lia. apply bsum_dl. lia. }
  assert (D2 : dl i (bf2 i)) by (unfold bf2; replace i with (Datatypes.S (i - 1)) at 1 by lia; apply bsum_dl; lia).
  exists (radd (rmul (X 0) (rmul (ropp K f4') F)) (rmul (X (n - m)) (rmul (bf2 i) G))). split.
  - apply span_app.
    + apply (span_in K v (shifts (i - 1) F)); [apply incl_appl, incl_refl|]. apply (span_quo K HD v (i - 1)); [apply (dl_opp K HD), D4|lia].
    + apply (span_in K v (shifts n G)); [apply incl_appr, incl_refl|]. apply (span_quo K HD v i); [exact D2|lia].
  - rewrite (bez_poly_eq i Hi), E4, (X_0 K HD). unfold rsub. ring.
Qed.
Fixpoint bez_rows (i : nat) : list R := match i with O => [] | Datatypes.S i' => bez_poly i :: bez_rows i' end.
Lemma bez_rows_length i : length (bez_rows i) = i. Proof. induction i; cbn; lia. Qed.
Lemma bez_rows_dl i : i <= m -> Forall (dl n) (bez_rows i).
Proof. induction i as [|i IH]; intros H; cbn [bez_rows]; constructor; [apply bez_poly_dl; lia|apply IH; lia]. Qed.
Lemma bez_replace k i : i <= m -> forall pre, DPn 0 k (pre ++ bez_rows i ++ shifts n G) == rmul (rpow (ropp K g) i) (DPn 0 k (pre ++ shifts i F ++ shifts n G)).
Proof.
  induction i as [|i IH]; intros H pre; cbn [bez_rows app ResSpec.shifts Spec.rpow]; [ring|].
  replace (pre ++ bez_poly (Datatypes.S i) :: bez_rows i ++ shifts n G) with ((pre ++ [bez_poly (Datatypes.S i)]) ++ bez_rows i ++ shifts n G) by (rewrite <- app_assoc; reflexivity).
  rewrite IH by lia. rewrite <- app_assoc. cbn [app]. destruct (bez_poly_span (Datatypes.S i) ltac:(lia)) as (q & Hq & E). replace (Datatypes.S i - 1) with i in * by lia.
  rewrite (al_mid K v _ (DP_al K HD v 0 k) pre _ _ (shifts i F ++ shifts n G) E). rewrite (al_add_span K HD v _ (DP_al K HD v 0 k) pre _ q _ Hq).
  change (rmono K [(v, N.of_nat i)]) with (X i).
  rewrite (al_scale K HD v _ (DP_al K HD v 0 k)) by (apply (vfree_opp K HD), (cf_free K HD)). ring.
Qed.
Theorem bez_main : 1 <= m -> ~ g == r0 -> DP 0 (bez_rows m ++ shifts (n - m) G) == subres K v n m F G 0.
Proof.
  intros Hm Ng. unfold subres. rewrite !Nat.sub_0_r. apply (lcancel K HD HG (rpow g m)); [apply (rpow_nz_ K HD HG), Ng|].
  assert (L1 : length (shifts m F ++ shifts n G) = n + m) by (rewrite app_length, !(shifts_length K v); lia). rewrite (DP_len K v 0 _ _ L1).
  pose proof (bez_replace (n + m) m (le_n _) []) as E. cbn [app] in E.
  pose proof (al_block K HD v _ (DP_al K HD v 0 (n + m)) (bez_rows m) [] (shifts n G) []) as E2. rewrite !app_nil_r, bez_rows_length, (shifts_length K v) in E2. cbn [app] in E2.
  assert (L3 : length (shifts n G ++ bez_rows m) = n + m) by (rewrite app_length, bez_rows_length, !(shifts_length K v); lia).
  pose proof (DP_peels K HD v 0 (n - m) m G m (bez_rows m) HGG ltac:(rewrite bez_rows_length; lia)) as E3.
  replace (n - m + m) with n in E3 by lia. specialize (E3 (bez_rows_dl m (le_n _)) ltac:(rewrite bez_rows_length; lia)).
  replace (m + (n - m)) with n in E3 by lia. rewrite (DP_len K v 0 _ _ L3) in E3.
  assert (L4 : length (shifts (n - m) G ++ bez_rows m) = n) by (rewrite app_length, bez_rows_length, !(shifts_length K v); lia). rewrite (DP_len K v 0 _ _ L4) in E3.
  pose proof (al_block K HD v _ (DP_al K HD v 0 n) (shifts (n - m) G) [] (bez_rows m) []) as E4. rewrite !app_nil_r, bez_rows_length, (shifts_length K v) in E4. cbn [app] in E4.
  assert (L5 : length (bez_rows m ++ shifts (n - m) G) = n) by (rewrite app_length, bez_rows_length, !(shifts_length K v); lia). rewrite (DP_len K v 0 _ _ L5).
  set (D := DPn 0 n (bez_rows m ++ shifts (n - m) G)) in *. set (S0 := DPn 0 (n + m) (shifts m F ++ shifts n G)) in *.
  (* (-1)^m g^m S0 = (-1)^(mn) g^m (-1)^((n-m)m) D *)
  assert (E5 : rmul (rpow (ropp K g) m) S0 == rmul (rpow m1 (m * n)) (rmul (rpow g m) (rmul (rpow m1 ((n - m) * m)) D))).
  { rewrite <- E4, <- E3, <- E2, <- E. reflexivity. }
  assert (E6 : rpow (ropp K g) m == rmul (rpow m1 m) (rpow g m)).
  { rewrite <- (rpow_mulp K HD). apply rpow_proper; [exact HD|ring|reflexivity]. }
  assert (Ev : exists q, m + (m * n + (n - m) * m) = q + q).
  { assert (Z0 : exists q, m * (m + 1) = q + q) by (clear; induction m as [|t [q IH]]; [exists 0; reflexivity|exists (q + (t + 1)); nia]).
    destruct Z0 as [q Eq]. replace (m + (m * n + (n - m) * m)) with (m * (m + 1) + 2 * ((n - m) * m)) by nia. exists (q + (n - m) * m). lia. }
  destruct Ev as [q Ev].
  transitivity (rmul (rpow m1 (m + (m * n + (n - m) * m))) (rmul (rpow g m) D)).
  { rewrite Ev, (rpow_m1_even K HD). ring. }
  transitivity (rmul (rpow m1 m) (rmul (rpow (ropp K g) m) S0)).
  { rewrite E5, !(rpow_add K HK). ring. }
  rewrite E6. transitivity (rmul (rpow m1 (m + m)) (rmul (rpow g m) S0)); [rewrite (rpow_add K HK); ring|]. rewrite (rpow_m1_even K HD). ring.
Qed.
End B.
End RB.
