(** * Tools for the gcd proofs: results of the division loops do not depend on the loop bound; degrees
      under ring homomorphisms; Lagrange interpolation. *)
From Coq Require Import Ring_theory Ring Setoid Morphisms.
From Verif Require Import Prelude Coef Spec SpecProofs SpecOps SpecOpsProofs GcdDom GcdPoly GcdMath OrderSpec PairVec Mono MonoStruct Heap Poly Div PolyOps Gcd.

(** ** Loop bounds *)
Definition fuel_mono {A} (h : nat -> outcome A) : Prop := forall f f' a, f <= f' -> h f = Ok a -> h f' = Ok a.
Lemma fuel_agree {A} (h : nat -> outcome A) f a b : fuel_mono h -> h f = Ok a ->
  (exists n, forall k, n <= k -> h k = Ok b) -> a = b.
Proof. intros H E [n Hn]. pose proof (H f (max f n) a ltac:(lia) E). rewrite Hn in H0 by lia. congruence. Qed.

Section Fuel.
Context {M C : Type} (gt eqM : M -> M -> bool) (mmul : M -> M -> M) (mdiv : M -> M -> bool * M) (K : coefs C).
Lemma dloop_mono step v2 st : fuel_mono (fun f => dloop gt eqM mmul K step v2 f st).
Proof.
  intros f. revert st. induction f as [|f IH]; intros st f' a L E; cbn [dloop] in E; [discriminate|].
  destruct f' as [|f']; [lia|]. cbn [dloop]. destruct (_ && _); [exact E|].
  destruct (diter gt eqM mmul K step v2 st) as [st'| | |]; try discriminate. cbn [obind] in *. apply (IH st' f' a); [lia|exact E].
Qed.
Lemma pair_vec_div_mono comp v1 v2 : fuel_mono (fun f => pair_vec_div gt eqM mmul mdiv K f comp v1 v2).
Proof.
  intros f f' a L. unfold pair_vec_div. destruct v2 as [|g [|g2 gs]]; destruct v1 as [|t v1]; auto.
  destruct (comp _ _) as [[q|]| | |]; auto. cbn [obind]. unfold heap_div, omap.
  destruct (dloop gt eqM mmul K (step_q mdiv K g) (g :: g2 :: gs) f _) as [x| | |] eqn:E; try discriminate.
  rewrite (dloop_mono _ _ _ f f' x L E). auto.
Qed.
Lemma pair_vec_div_rem_mono comp v1 v2 : fuel_mono (fun f => pair_vec_div_rem gt eqM mmul mdiv K f comp v1 v2).
Proof.
  intros f f' a L. unfold pair_vec_div_rem. destruct v2 as [|g [|g2 gs]]; destruct v1 as [|t v1]; auto.
  destruct (comp _ _) as [[q|]| | |]; auto. cbn [obind]. unfold heap_div.
  destruct (dloop gt eqM mmul K (step_qr mdiv K g) (g :: g2 :: gs) f _) as [x| | |] eqn:E; try discriminate.
  rewrite (dloop_mono _ _ _ f f' x L E). auto.
Qed.
End Fuel.

(** ** Degrees under a homomorphism that preserves the degree of a multiple *)
Section Hom.
Context {C1 C2 : Type} (K1 : coefs C1) (K2 : coefs C2) (HD1 : domain_ok K1) (HG1 : cgcd_ok K1) (HD2 : domain_ok K2) (HG2 : cgcd_ok K2).
Context (h : rpoly C1 -> rpoly C2).
Context (hmul : forall p q r, req K1 r (rmul K1 p q) -> req K2 (h r) (rmul K2 (h p) (h q))).
Context (x : var) (hdeg : forall p d, deg_le K1 p x d -> deg_le K2 (h p) x d).

Lemma deg_is_le {C} (K : coefs C) p v d n : deg_is K p v d -> deg_le K p v n -> (d <= n)%N.
Proof. intros [_ [->|(m & Hm & <-)]] L; [lia|]. apply L, Hm. Qed.
Lemma deg_zero {C} (K : coefs C) (HK : ring_ok K) p v : req K p r0 -> deg_is K p v 0%N.
Proof. intros E. split; [intros m Hm; rewrite (E m) in Hm; cbn in Hm; congruence|left; reflexivity]. Qed.

Theorem hom_deg F D e n : ~ req K1 F r0 -> ~ req K2 (h F) r0 -> deg_is K1 F x e -> deg_is K2 (h F) x e ->
  rdivides K1 D F -> deg_le K2 (h D) x n -> deg_le K1 D x n.
Proof.
  intros NF Nz DF DhF [E HE] L.
  pose proof (domain_ring K1 HD1) as HK1. pose proof (domain_ring K2 HD2) as HK2.
  pose proof (hmul E D F HE) as HhF.
  assert (NE : ~ req K1 E r0) by (intros Z; apply NF; rewrite HE, Z; reflexivity).
  assert (ND : ~ req K1 D r0).
  { intros Z. apply NF. rewrite HE, Z. unfold rmul, r0. clear. induction E as [|t E IH]; [reflexivity|exact IH]. }
  assert (NhE : ~ req K2 (h E) r0) by (intros Z; apply Nz; rewrite HhF, Z; reflexivity).
  assert (NhD : ~ req K2 (h D) r0).
  { intros Z. apply Nz. rewrite HhF, Z. unfold rmul, r0. clear. induction (h E) as [|t E' IH]; [reflexivity|exact IH]. }
  destruct (deg_exists K1 HD1 E x) as [a Ha]. destruct (deg_exists K1 HD1 D x) as [b Hb].
  destruct (deg_exists K2 HD2 (h E) x) as [a' Ha']. destruct (deg_exists K2 HD2 (h D) x) as [b' Hb'].
  pose proof (deg_is_mul K1 HD1 HG1 E D x a b NE ND Ha Hb) as M1.
  pose proof (deg_is_mul K2 HD2 HG2 (h E) (h D) x a' b' NhE NhD Ha' Hb') as M2.
  assert (E1 : (e = a + b)%N).
  { apply (deg_is_unique K1 F x); [exact DF|]. destruct M1 as [A B]. split.
    - intros m Hm. apply A. rewrite <- (HE m). exact Hm.
    - destruct B as [B|(m & Hm & B)]; [left; exact B|right]. exists m. rewrite (HE m). auto. }
  assert (E2 : (e = a' + b')%N).
  { apply (deg_is_unique K2 (h F) x); [exact DhF|]. destruct M2 as [A B]. split.
    - intros m Hm. apply A. rewrite <- (HhF m). exact Hm.
    - destruct B as [B|(m & Hm & B)]; [left; exact B|right]. exists m. rewrite (HhF m). auto. }
  pose proof (deg_is_le K2 _ _ _ _ Ha' (hdeg _ _ (proj1 Ha))). pose proof (deg_is_le K2 _ _ _ _ Hb' L).
  pose proof (deg_is_le K2 _ _ _ _ Hb' (hdeg _ _ (proj1 Hb))).
  intros m Hm. pose proof (proj1 Hb m Hm). lia.
Qed.
End Hom.

(** ** Lagrange interpolation *)
Section Lagrange.
Context {C : Type} (K : coefs C) (HF : field_ok K).
Let HD : domain_ok K := field_domain K HF.
Let HK : ring_ok K := domain_ring K HD.
Add Ring Kring : (ring_laws K HK).
Notation "0c" := (c0 K). Notation "1c" := (c1 K).
Local Infix "+c" := (cadd K) (at level 50, left associativity).
Local Infix "*c" := (cmul K) (at level 40, left associativity).
Local Infix "-c" := (csub K) (at level 50, left associativity).

Fixpoint peval (l : list C) (a : C) : C := match l with [] => 0c | c :: r => c +c a *c peval r a end.
Lemma peval_zero l a : Forall (fun c => c = 0c) l -> peval l a = 0c.
Proof. induction 1 as [|c l -> _ IH]; cbn [peval]; [reflexivity|]. rewrite IH. ring. Qed.
Lemma peval_repeat n a : peval (repeat 0c n) a = 0c.
Proof. apply peval_zero, Forall_forall. intros c Hc. apply repeat_spec in Hc. exact Hc. Qed.

Lemma lin_go_length prev pj inv l : length (lin_go K prev pj inv l) = length l.
Proof. revert prev. induction l as [|a l IH]; intros prev; cbn [lin_go length]; [reflexivity|]. rewrite IH. reflexivity. Qed.
Lemma lin_step_length pi pj l : length (lin_step K pi pj l) = length l.
Proof. destruct l as [|a l]; cbn [lin_step length]; [reflexivity|]. rewrite lin_go_length. reflexivity. Qed.
Lemma lin_go_eval pj inv l : forall prev a, peval (lin_go K prev pj inv l) a =
  inv *c (prev +c (a -c pj) *c peval l a -c last (prev :: l) 0c *c cpow K a (length l)).
Proof.
  induction l as [|b l IH]; intros prev a; cbn [lin_go peval length cpow].
  - cbn [last]. ring.
  - rewrite IH. replace (last (prev :: b :: l) 0c) with (last (b :: l) 0c) by reflexivity. ring.
Qed.
Lemma lin_step_eval pi pj l a : last l 0c = 0c ->
  peval (lin_step K pi pj l) a = cquo K 1c (pi -c pj) *c (a -c pj) *c peval l a.
Proof.
  intros L. destruct l as [|b l]; cbn [lin_step peval]; [ring|]. rewrite lin_go_eval. rewrite L. ring.
Qed.
Definition tz (k : nat) (l : list C) : Prop := forall i, k <= i -> nth i l 0c = 0c.
Lemma lin_go_nth pj inv l : forall prev i, i < length l ->
  nth i (lin_go K prev pj inv l) 0c = (nth i (prev :: l) 0c -c nth i l 0c *c pj) *c inv.
Proof.
  induction l as [|b l IH]; intros prev [|i] L; cbn [length] in L; try lia; cbn [lin_go nth]; [reflexivity|].
  rewrite IH by lia. reflexivity.
Qed.
Lemma lin_step_tz k pi pj l : tz k l -> tz (S k) (lin_step K pi pj l).
Proof.
  intros H i L. destruct (Nat.lt_ge_cases i (length l)) as [Li|Li]; [|apply nth_overflow; rewrite lin_step_length; exact Li].
  destruct l as [|b l]; [cbn in Li; lia|]. destruct i as [|i]; [lia|]. cbn [lin_step nth]. cbn [length] in Li. rewrite lin_go_nth by lia.
  pose proof (H i ltac:(lia)) as A. pose proof (H (S i) ltac:(lia)) as B. cbn [nth] in B. rewrite A, B. ring.
Qed.
Lemma tz_last k l : tz k l -> k < length l -> last l 0c = 0c.
Proof.
  intros H L. destruct l as [|b l]; [reflexivity|]. rewrite <- (H (length l)); [|cbn in L; lia].
  clear. revert b. induction l as [|c l IH]; intros b; [reflexivity|]. cbn [last length nth]. apply IH.
Qed.
Lemma lag_go_length i pi pts : forall j l, length (lag_go K i j pi pts l) = length l.
Proof.
  induction pts as [|pj pts IH]; intros j l; cbn [lag_go]; [reflexivity|]. rewrite IH. destruct (Nat.eqb i j); [reflexivity|apply lin_step_length].
Qed.
Definition slot (i j : nat) (pts : list C) : nat := if (j <=? i) && (i <? j + length pts) then 1 else 0.

Lemma lag_go_zero i pi pts : forall j l k a, tz k l -> k + length pts <= length l + slot i j pts -> peval l a = 0c -> peval (lag_go K i j pi pts l) a = 0c.
Proof.
  induction pts as [|pj pts IH]; intros j l k a T L E; cbn [lag_go]; [exact E|].
  unfold slot in *. cbn [length] in L. destruct (Nat.eqb_spec i j) as [e|n].
  - apply (IH _ _ k); [exact T| |exact E].
    destruct (Nat.leb_spec j i), (Nat.leb_spec (S j) i), (Nat.ltb_spec i (j + S (length pts))), (Nat.ltb_spec i (S j + length pts)); cbn [andb] in *; lia.
  - apply (IH _ _ (S k)); [apply lin_step_tz, T| |].
    + rewrite lin_step_length.
      destruct (Nat.leb_spec j i), (Nat.leb_spec (S j) i), (Nat.ltb_spec i (j + S (length pts))), (Nat.ltb_spec i (S j + length pts)); cbn [andb] in *; lia.
    + rewrite lin_step_eval; [rewrite E; ring|]. apply (tz_last k); [exact T|].
      destruct (Nat.leb_spec j i), (Nat.ltb_spec i (j + S (length pts))); cbn [andb] in *; lia.
Qed.
Lemma lag_go_hit i pi pts : forall j l k a m, tz k l -> k + length pts <= length l + slot i j pts ->
  nth_error pts m = Some a -> j + m <> i -> peval (lag_go K i j pi pts l) a = 0c.
Proof.
  induction pts as [|pj pts IH]; intros j l k a m T L E Nm; [destruct m; discriminate|]. cbn [lag_go].
  assert (L' : k + length pts < length l + (if Nat.eqb i j then 1 else 0) + slot i (S j) pts /\ (i <> j -> k < length l)).
  { unfold slot in *. cbn [length] in L.
    destruct (Nat.eqb_spec i j), (Nat.leb_spec j i), (Nat.leb_spec (S j) i), (Nat.ltb_spec i (j + S (length pts))), (Nat.ltb_spec i (S j + length pts)); cbn [andb] in *; (split; [|intros ?]); lia. }
  destruct L' as [L1 L2].
  destruct m as [|m]; cbn [nth_error] in E.
  - injection E as ->. destruct (Nat.eqb_spec i j) as [e|n]; [lia|].
    apply (lag_go_zero _ _ _ _ _ (S k)); [apply lin_step_tz, T|rewrite lin_step_length; lia|].
    rewrite lin_step_eval; [|apply (tz_last k); [exact T|auto]]. ring.
  - destruct (Nat.eqb_spec i j) as [e|n].
    + apply (IH _ _ k a m); [exact T|lia|exact E|lia].
    + apply (IH _ _ (S k) a m); [apply lin_step_tz, T|rewrite lin_step_length; lia|exact E|lia].
Qed.
Lemma lag_go_one i pi pts : forall j l k, tz k l -> k + length pts <= length l + slot i j pts ->
  (forall m a, nth_error pts m = Some a -> j + m <> i -> a <> pi) ->
  peval (lag_go K i j pi pts l) pi = peval l pi.
Proof.
  induction pts as [|pj pts IH]; intros j l k T L Hd; [reflexivity|]. cbn [lag_go].
  assert (L' : k + length pts < length l + (if Nat.eqb i j then 1 else 0) + slot i (S j) pts /\ (i <> j -> k < length l)).
  { unfold slot in *. cbn [length] in L.
    destruct (Nat.eqb_spec i j), (Nat.leb_spec j i), (Nat.leb_spec (S j) i), (Nat.ltb_spec i (j + S (length pts))), (Nat.ltb_spec i (S j + length pts)); cbn [andb] in *; (split; [|intros ?]); lia. }
  destruct L' as [L1 L2].
  assert (Hd' : forall m a, nth_error pts m = Some a -> S j + m <> i -> a <> pi).
  { intros m a E N. apply (Hd (S m) a E). lia. }
  destruct (Nat.eqb_spec i j) as [e|n].
  - apply (IH _ _ k); [exact T|lia|exact Hd'].
  - rewrite (IH _ _ (S k)); [|apply lin_step_tz, T|rewrite lin_step_length; lia|exact Hd'].
    rewrite lin_step_eval; [|apply (tz_last k); [exact T|auto]].
    rewrite (field_quo K HF); [ring|]. intros Z. apply (Hd 0 pj eq_refl); [lia|].
    transitivity (pi -c (pi -c pj)); [ring|]. rewrite Z. ring.
Qed.
Lemma lag_eval pts i m a : NoDup pts -> i < length pts -> nth_error pts m = Some a ->
  peval (lag K pts i) a = if Nat.eqb i m then 1c else 0c.
Proof.
  intros ND Li E. unfold lag.
  assert (T : tz 1 (1c :: repeat 0c (length pts - 1))).
  { intros [|k] Lk; [lia|]. cbn [nth]. apply nth_repeat. }
  assert (L : 1 + length pts <= length (1c :: repeat 0c (length pts - 1)) + slot i 0 pts).
  { cbn [length]. rewrite repeat_length. unfold slot. cbn [Nat.leb]. destruct (Nat.ltb_spec i (0 + length pts)); cbn [andb]; lia. }
  destruct (Nat.eqb_spec i m) as [e|n].
  - subst m. rewrite (nth_error_nth _ _ 0c E). rewrite (lag_go_one i a pts 0 _ 1 T L).
    + cbn [peval]. rewrite peval_repeat. ring.
    + intros m b Em Nm ->. apply Nm. cbn. apply (proj1 (NoDup_nth_error pts) ND m i); [apply nth_error_Some; rewrite Em; discriminate|].
      rewrite Em, E. reflexivity.
  - apply (lag_go_hit i _ pts 0 _ 1 a m T L E). cbn. congruence.
Qed.

(** the sum of the coefficients times the powers of the k-th point is the k-th value *)
Lemma peval_map_scale c l a : peval (map (fun b => c *c b) l) a = c *c peval l a.
Proof. induction l as [|b l IH]; cbn [map peval]; [ring|]. rewrite IH. ring. Qed.
Lemma peval_map_add {T} (f g : T -> C) l a : peval (map (fun j => f j +c g j) l) a = peval (map f l) a +c peval (map g l) a.
Proof. induction l as [|b l IH]; cbn [map peval]; [ring|]. rewrite IH. ring. Qed.
Lemma map_nth_seq l : forall k, map (fun j => nth (j - k) l 0c) (seq k (length l)) = l.
Proof.
  induction l as [|b l IH]; intros k; [reflexivity|]. cbn [length seq map]. rewrite Nat.sub_diag. cbn [nth]. f_equal.
  rewrite <- (IH (S k)) at 2. apply map_ext_in. intros j Hj. apply in_seq in Hj. replace (j - k) with (S (j - S k)) by lia. reflexivity.
Qed.
Lemma interp_fold pts vec ks a : (forall k, In k ks -> k < length pts) -> forall s : nat -> C,
  peval (map (fun j => fold_left (fun s k => s +c nth k vec 0c *c nth j (lag K pts k) 0c) ks (s j)) (seq 0 (length pts))) a =
  fold_left (fun s k => s +c nth k vec 0c *c peval (lag K pts k) a) ks (peval (map s (seq 0 (length pts))) a).
Proof.
  induction ks as [|k ks IH]; intros B s; cbn [fold_left]; [reflexivity|].
  rewrite (IH (fun k' Hk => B k' (or_intror Hk)) (fun j => s j +c nth k vec 0c *c nth j (lag K pts k) 0c)). f_equal.
  rewrite (peval_map_add s (fun j => nth k vec 0c *c nth j (lag K pts k) 0c)). f_equal.
  assert (Lk : length (lag K pts k) = length pts).
  { unfold lag. rewrite lag_go_length. cbn [length]. rewrite repeat_length. specialize (B k (or_introl eq_refl)). lia. }
  rewrite <- peval_map_scale. f_equal. transitivity (map (fun b => nth k vec 0c *c b) (map (fun j => nth (j - 0) (lag K pts k) 0c) (seq 0 (length (lag K pts k))))); [|rewrite map_nth_seq; reflexivity]. rewrite map_map, Lk. apply map_ext. intros j. rewrite Nat.sub_0_r. reflexivity.
Qed.
Theorem interp_eval pts vec m a : NoDup pts -> nth_error pts m = Some a ->
  peval (map (interp_coef K pts vec) (seq 0 (length pts))) a = nth m vec 0c.
Proof.
  intros ND E. assert (Lm : m < length pts) by (apply nth_error_Some; rewrite E; discriminate).
  unfold interp_coef. rewrite (interp_fold pts vec (seq 0 (length pts)) a) with (s := fun _ => 0c); [|intros k Hk; apply in_seq in Hk; lia].
  rewrite (peval_zero (map _ _)); [|apply Forall_map, Forall_forall; reflexivity].
  assert (G : forall ks s, NoDup ks -> (forall k, In k ks -> k < length pts) ->
     fold_left (fun s k => s +c nth k vec 0c *c peval (lag K pts k) a) ks s = s +c (if in_dec Nat.eq_dec m ks then nth m vec 0c else 0c)).
  { induction ks as [|k ks IH]; intros s Nk B; cbn [fold_left]; [destruct (in_dec Nat.eq_dec m []) as [[]|]; ring|].
    inversion Nk as [|? ? Hn Nk']; subst. rewrite IH; [|exact Nk'|intros; apply B; right; assumption].
    rewrite (lag_eval pts k m a ND (B k (or_introl eq_refl)) E).
    destruct (Nat.eqb_spec k m) as [->|n].
    - destruct (in_dec Nat.eq_dec m ks) as [i|_]; [contradiction|]. destruct (in_dec Nat.eq_dec m (m :: ks)) as [_|X]; [ring|exfalso; apply X; left; reflexivity].
    - destruct (in_dec Nat.eq_dec m ks) as [i|n1], (in_dec Nat.eq_dec m (k :: ks)) as [i2|n2]; try ring.
      + exfalso. apply n2. right. exact i.
      + destruct i2 as [e|i2]; [congruence|contradiction]. }
  rewrite G; [|apply seq_NoDup|intros k Hk; apply in_seq in Hk; lia].
  destruct (in_dec Nat.eq_dec m (seq 0 (length pts))) as [_|n]; [ring|]. exfalso. apply n, in_seq. lia.
Qed.
Lemma interp_nonzero pts vec m a : NoDup pts -> nth_error pts m = Some a -> nth m vec 0c <> 0c ->
  exists j, j < length pts /\ interp_coef K pts vec j <> 0c.
Proof.
  intros ND E N. destruct (existsb (fun j => negb (is0 K (interp_coef K pts vec j))) (seq 0 (length pts))) eqn:X.
  - apply existsb_exists in X as (j & Hj & Hn). apply in_seq in Hj. exists j. split; [lia|]. intros Z. rewrite Z in Hn. unfold is0 in Hn.
    rewrite (proj2 (ceqb_eq K HK 0c 0c) eq_refl) in Hn. discriminate.
  - exfalso. apply N. rewrite <- (interp_eval pts vec m a ND E). apply peval_zero, Forall_map, Forall_forall. intros j Hj.
    assert (Y : negb (is0 K (interp_coef K pts vec j)) = false).
    { destruct (negb _) eqn:Y; [|reflexivity]. assert (Z : existsb (fun j => negb (is0 K (interp_coef K pts vec j))) (seq 0 (length pts)) = true); [|congruence].
      apply existsb_exists. exists j. auto. }
    apply negb_false_iff in Y. apply (ceqb_eq K HK) in Y. exact Y.
Qed.
End Lagrange.
