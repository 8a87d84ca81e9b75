(** * C38: intersection, hull and power of intervals.

    Points are the elements of any totally ordered set P in which the rationals embed ([emb]); for pow, P also has a
    product.  The rationals and the reals are instances; nothing about mpria is used but that its product (square)
    of intervals contains the products (squares) of their points. *)
From Coq Require Import QArith.
From Verif Require Import Prelude Interval.
Local Open Scope nat_scope.

(** ** specification *)
Record points (P : Type) := {
  ple : P -> P -> Prop; emb : Q -> P;
  ple_refl : forall x, ple x x; ple_trans : forall x y z, ple x y -> ple y z -> ple x z; ple_total : forall x y, ple x y \/ ple y x;
  emb_le : forall p q, ple (emb p) (emb q) <-> (p <= q)%Q }.
Arguments ple {P}. Arguments emb {P}.
Section Spec.
Context {P : Type} (O : points P).
Definition above (e : endpoint) (x : P) : Prop := match e with NaN => False | NInf => True | Fin q => ple O (emb O q) x | PInf => False end.
Definition below (e : endpoint) (x : P) : Prop := match e with NaN => False | PInf => True | Fin q => ple O x (emb O q) | NInf => False end.
(** x lies in the interval *)
Definition inside (I : interval) (x : P) : Prop := above (lep I) x /\ below (rep I) x.
Definition convex (J : P -> Prop) : Prop := forall a b x, J a -> J b -> ple O a x -> ple O x b -> J x.
End Spec.
(** the intervals that the constructors, && and || produce: NaN/NaN or l <= r with l not +inf and r not -inf *)
Definition proper (I : interval) : Prop :=
  I = NAN_interval \/
  match lep I, rep I with
  | NInf, Fin _ | NInf, PInf | Fin _, PInf => True
  | Fin p, Fin q => (p <= q)%Q
  | _, _ => False
  end.

Section Proofs.
Context {P : Type} (O : points P).
Lemma cmp_fin p q : QQ_cmp (Fin p) (Fin q) = match (p ?= q)%Q with Lt => -1 | Eq => 0 | Gt => 1 end%Z.
Proof. reflexivity. Qed.
Lemma emb_trans_l p q x : (p <= q)%Q -> ple O (emb O q) x -> ple O (emb O p) x.
Proof. intros H X. eapply (ple_trans P O); [apply (emb_le P O), H|exact X]. Qed.
Lemma emb_trans_r p q x : (p <= q)%Q -> ple O x (emb O p) -> ple O x (emb O q).
Proof. intros H X. eapply (ple_trans P O); [exact X|apply (emb_le P O), H]. Qed.
Lemma max_l a b x : is_nan_ep a = false -> is_nan_ep b = false -> (above O (if (0 <=? QQ_cmp a b)%Z then a else b) x <-> above O a x /\ above O b x).
Proof.
  destruct a as [| |p|], b as [| |q|]; intros Na Nb; try discriminate; try (cbn; tauto). rewrite cmp_fin. cbn [above].
  destruct (Qcompare_spec p q) as [E|E|E]; cbn [above Z.leb Z.compare].
  - split; [intros H; split; [exact H|apply (emb_trans_l q p); [rewrite E; apply Qle_refl|exact H]]|tauto].
  - split; [intros H; split; [apply (emb_trans_l p q); [apply Qlt_le_weak, E|exact H]|exact H]|tauto].
  - split; [intros H; split; [exact H|apply (emb_trans_l q p); [apply Qlt_le_weak, E|exact H]]|tauto].
Qed.
Lemma min_r a b x : is_nan_ep a = false -> is_nan_ep b = false -> (below O (if (QQ_cmp a b <=? 0)%Z then a else b) x <-> below O a x /\ below O b x).
Proof.
  destruct a as [| |p|], b as [| |q|]; intros Na Nb; try discriminate; try (cbn; tauto). rewrite cmp_fin. cbn [below].
  destruct (Qcompare_spec p q) as [E|E|E]; cbn [below Z.leb Z.compare].
  - split; [intros H; split; [exact H|apply (emb_trans_r p q); [rewrite E; apply Qle_refl|exact H]]|tauto].
  - split; [intros H; split; [exact H|apply (emb_trans_r p q); [apply Qlt_le_weak, E|exact H]]|tauto].
  - split; [intros H; split; [apply (emb_trans_r q p); [apply Qlt_le_weak, E|exact H]|exact H]|tauto].
Qed.
Lemma min_l a b x : is_nan_ep a = false -> is_nan_ep b = false -> (above O (if (QQ_cmp a b <=? 0)%Z then a else b) x <-> above O a x \/ above O b x).
Proof.
  destruct a as [| |p|], b as [| |q|]; intros Na Nb; try discriminate; try (cbn; tauto). rewrite cmp_fin. cbn [above].
  destruct (Qcompare_spec p q) as [E|E|E]; cbn [above Z.leb Z.compare].
  - split; [tauto|]. intros [H|H]; [exact H|apply (emb_trans_l p q); [rewrite E; apply Qle_refl|exact H]].
  - split; [tauto|]. intros [H|H]; [exact H|apply (emb_trans_l p q); [apply Qlt_le_weak, E|exact H]].
  - split; [tauto|]. intros [H|H]; [apply (emb_trans_l q p); [apply Qlt_le_weak, E|exact H]|exact H].
Qed.
Lemma max_r a b x : is_nan_ep a = false -> is_nan_ep b = false -> (below O (if (0 <=? QQ_cmp a b)%Z then a else b) x <-> below O a x \/ below O b x).
Proof.
  destruct a as [| |p|], b as [| |q|]; intros Na Nb; try discriminate; try (cbn; tauto). rewrite cmp_fin. cbn [below].
  destruct (Qcompare_spec p q) as [E|E|E]; cbn [below Z.leb Z.compare].
  - split; [tauto|]. intros [H|H]; [exact H|apply (emb_trans_r q p); [rewrite E; apply Qle_refl|exact H]].
  - split; [tauto|]. intros [H|H]; [apply (emb_trans_r p q); [apply Qlt_le_weak, E|exact H]|exact H].
  - split; [tauto|]. intros [H|H]; [exact H|apply (emb_trans_r q p); [apply Qlt_le_weak, E|exact H]].
Qed.
Lemma empty_cmp l r x : is_nan_ep l = false -> is_nan_ep r = false -> (0 < QQ_cmp l r)%Z -> above O l x -> below O r x -> False.
Proof.
  destruct l as [| |p|], r as [| |q|]; intros Na Nb; try discriminate; try (cbn; tauto || lia). rewrite cmp_fin. cbn [above below].
  destruct (Qcompare_spec p q) as [E|E|E]; try lia. intros _ H1 H2. apply (Qlt_not_le _ _ E), (emb_le P O). exact (ple_trans P O _ _ _ H1 H2).
Qed.
Lemma nan_split A : is_nan A = false -> is_nan_ep (lep A) = false /\ is_nan_ep (rep A) = false.
Proof. apply orb_false_elim. Qed.
Lemma nan_inside A x : is_nan A = true -> ~ inside O A x.
Proof. unfold is_nan, inside. destruct A as [l r]. cbn. destruct l, r; cbn; try discriminate; tauto. Qed.
End Proofs.

(** x is in A && B exactly if it is in both: all intervals, all endpoints, empty (NaN) ones included *)
Theorem C38_intersection : forall P (O : points P) A B x, inside O (inter A B) x <-> inside O A x /\ inside O B x.
Proof.
  intros P O A B x. unfold inter. destruct (is_nan A) eqn:EA; [|destruct (is_nan B) eqn:EB]; cbn [orb].
  - split; [intros [[] _]|intros [H _]; destruct (nan_inside O A x EA H)].
  - split; [intros [[] _]|intros [_ H]; destruct (nan_inside O B x EB H)].
  - apply nan_split in EA as [A1 A2]. apply nan_split in EB as [B1 B2].
    set (l := if (0 <=? QQ_cmp (lep A) (lep B))%Z then lep A else lep B). set (r := if (QQ_cmp (rep A) (rep B) <=? 0)%Z then rep A else rep B).
    pose proof (max_l O (lep A) (lep B) x A1 B1) as L. pose proof (min_r O (rep A) (rep B) x A2 B2) as R. fold l in L. fold r in R.
    destruct (Z.ltb_spec 0 (QQ_cmp l r)) as [E|E].
    + split; [intros [[] _]|]. intros [[H1 H2] [H3 H4]]. exfalso.
      apply (empty_cmp O l r x); [unfold l; destruct (0 <=? _)%Z; assumption|unfold r; destruct (_ <=? 0)%Z; assumption|exact E|apply L; auto|apply R; auto].
    + unfold inside at 1. cbn [lep rep]. rewrite L, R. unfold inside. tauto.
Qed.
Print Assumptions C38_intersection.
(** A || B contains A and B, is contained in every convex set that does, and so is the smallest such interval *)
Theorem C38_hull : forall P (O : points P) A B, proper A -> proper B ->
  (forall x, inside O A x \/ inside O B x -> inside O (hull A B) x) /\
  (forall J, convex O J -> (forall x, inside O A x \/ inside O B x -> J x) -> forall x, inside O (hull A B) x -> J x) /\
  proper (hull A B).
Proof.
  intros P O A B PA PB.
  (* every point above the left end of a proper interval has a point of the interval before it *)
  assert (Lo : forall I x, proper I -> above O (lep I) x -> exists a, inside O I a /\ ple O a x).
  { intros [l r] x [E|E] H; [injection E as -> ->; destruct H|]. cbn [lep rep] in *. unfold inside. cbn [lep rep]. destruct l as [| |p|], r as [| |q|]; try contradiction; cbn [above below] in *.
    - destruct (ple_total P O x (emb O q)) as [C|C]; [exists x; split; [auto|apply (ple_refl P O)]|exists (emb O q); split; [split; [exact I|apply (ple_refl P O)]|exact C]].
    - exists x. split; [auto|apply (ple_refl P O)].
    - exists (emb O p). split; [split; [apply (ple_refl P O)|apply (emb_le P O), E]|exact H].
    - exists (emb O p). split; [split; [apply (ple_refl P O)|exact I]|exact H]. }
  assert (Hi : forall I x, proper I -> below O (rep I) x -> exists a, inside O I a /\ ple O x a).
  { intros [l r] x [E|E] H; [injection E as -> ->; destruct H|]. cbn [lep rep] in *. unfold inside. cbn [lep rep]. destruct l as [| |p|], r as [| |q|]; try contradiction; cbn [above below] in *.
    - exists (emb O q). split; [split; [exact I|apply (ple_refl P O)]|exact H].
    - exists x. split; [auto|apply (ple_refl P O)].
    - exists (emb O q). split; [split; [apply (emb_le P O), E|apply (ple_refl P O)]|exact H].
    - destruct (ple_total P O x (emb O p)) as [C|C]; [exists (emb O p); split; [split; [apply (ple_refl P O)|exact I]|exact C]|exists x; split; [auto|apply (ple_refl P O)]]. }
  unfold hull. destruct (is_nan A) eqn:EA; [|destruct (is_nan B) eqn:EB].
  - split; [intros x [H|H]; [destruct (nan_inside O A x EA H)|exact H]|]. split; [intros J _ HJ x H; apply HJ; right; exact H|exact PB].
  - split; [intros x [H|H]; [exact H|destruct (nan_inside O B x EB H)]|]. split; [intros J _ HJ x H; apply HJ; left; exact H|exact PA].
  - pose proof EA as EA'. pose proof EB as EB'. apply nan_split in EA as [A1 A2]. apply nan_split in EB as [B1 B2].
    assert (In : forall x, inside O (Itv (if (QQ_cmp (lep A) (lep B) <=? 0)%Z then lep A else lep B) (if (0 <=? QQ_cmp (rep A) (rep B))%Z then rep A else rep B)) x <->
      (above O (lep A) x \/ above O (lep B) x) /\ (below O (rep A) x \/ below O (rep B) x)).
    { intros x. unfold inside. cbn [lep rep]. rewrite (min_l O) by assumption. rewrite (max_r O) by assumption. reflexivity. }
    split; [|split].
    + intros x H. apply In. unfold inside in H. tauto.
    + intros J Cv HJ x H. apply In in H as [Ha Hb].
      assert (Xa : exists a, J a /\ ple O a x) by (destruct Ha as [Ha|Ha]; [destruct (Lo A x PA Ha) as (a & Ia & La)|destruct (Lo B x PB Ha) as (a & Ia & La)]; exists a; (split; [apply HJ; auto|exact La])).
      assert (Xb : exists b, J b /\ ple O x b) by (destruct Hb as [Hb|Hb]; [destruct (Hi A x PA Hb) as (a & Ia & La)|destruct (Hi B x PB Hb) as (a & Ia & La)]; exists a; (split; [apply HJ; auto|exact La])).
      destruct Xa as (a & Ja & La), Xb as (b & Jb & Lb). exact (Cv a b x Ja Jb La Lb).
    + destruct A as [la ra], B as [lb rb]. cbn [lep rep] in *. destruct PA as [E|PA]; [injection E as -> ->; discriminate|]. destruct PB as [E|PB]; [injection E as -> ->; discriminate|].
      cbn [lep rep] in *. right. cbn [lep rep].
      destruct la as [| |p|], ra as [| |q|]; try contradiction; destruct lb as [| |p'|], rb as [| |q'|]; try contradiction; rewrite ?cmp_fin; cbn; try exact I;
        try (destruct (q ?= q')%Q; exact I); try (destruct (p ?= p')%Q; exact I).
      destruct (Qcompare_spec p p') as [E1|E1|E1]; destruct (Qcompare_spec q q') as [E2|E2|E2]; cbn; idtac;
        repeat match goal with H : (_ == _)%Q |- _ => rewrite H in * | H : (_ < _)%Q |- _ => apply Qlt_le_weak in H end; eauto using Qle_trans.
Qed.
Print Assumptions C38_hull.

(** pow(A, n) contains x^n for every x in A, for every product/square of intervals that contains the products/squares of
    points, and every n < 2^63 *)
Section Power.
Context {P : Type} (O : points P) (pmul : P -> P -> P).
Local Notation "x * y" := (pmul x y).
Fixpoint ppow (x : P) (n : nat) : P := match n with 0%nat => emb O 1 | Datatypes.S m => ppow x m * x end.
Hypothesis mul_assoc : forall x y z, x * (y * z) = x * y * z.
Hypothesis mul_1_l : forall x, emb O 1 * x = x.
Hypothesis mul_1_r : forall x, x * emb O 1 = x.
Lemma ppow_add x a b : ppow x (a + b) = ppow x a * ppow x b.
Proof. induction b as [|b IH]; [rewrite Nat.add_0_r; symmetry; apply mul_1_r|]. rewrite Nat.add_succ_r. cbn [ppow]. rewrite IH. symmetry. apply mul_assoc. Qed.
Variables (mul : interval -> interval -> interval) (sqr : interval -> interval).
Hypothesis mul_sound : forall A B x y, inside O A x -> inside O B y -> inside O (mul A B) (x * y).
Hypothesis sqr_sound : forall A x, inside O A x -> inside O (sqr A) (x * x).
Lemma land_pow2 k n : N.land (2 ^ k) n = if N.testbit n k then (2 ^ k)%N else 0%N.
Proof.
  apply N.bits_inj. intros i. rewrite N.land_spec, N.pow2_bits_eqb. destruct (N.eqb_spec k i) as [<-|H].
  - destruct (N.testbit n k); [rewrite N.pow2_bits_true; reflexivity|rewrite N.bits_0; reflexivity].
  - cbn [andb]. destruct (N.testbit n k); [rewrite N.pow2_bits_false by congruence; reflexivity|rewrite N.bits_0; reflexivity].
Qed.
Lemma mod_step k n : (n mod 2 ^ N.succ k = n mod 2 ^ k + (if N.testbit n k then 2 ^ k else 0))%N.
Proof.
  rewrite N.pow_succ_r', N.mul_comm, N.mod_mul_r by (try apply N.pow_nonzero; discriminate). f_equal.
  rewrite <- N.testbit_spec'. destruct (N.testbit n k); cbn [N.b2n]; lia.
Qed.
Lemma pow_nat k : N.to_nat (2 ^ N.of_nat k) = 2 ^ k.
Proof. rewrite N2Nat.inj_pow, Nat2N.id. reflexivity. Qed.
Lemma pow_loop_ok n x : (3 <= n < 2 ^ 63)%N -> forall d k ans tmp, (2 ^ N.of_nat k <= n)%N -> (n < 2 ^ N.of_nat (k + Datatypes.S d))%N ->
  inside O ans (ppow x (N.to_nat (n mod 2 ^ N.of_nat k))) -> inside O tmp (ppow x (2 ^ k)) ->
  exists J, (forall fuel, Datatypes.S d <= fuel -> pow_loop mul sqr fuel n (2 ^ N.of_nat k) ans tmp = Ok J) /\ inside O J (ppow x (N.to_nat n)).
Proof.
  intros Hn d. induction d as [d IH] using lt_wf_ind. intros k ans tmp Hk Hd Ha Ht.
  set (ans' := if negb (N.land (2 ^ N.of_nat k) n =? 0)%N then mul ans tmp else ans).
  assert (Kb : (N.of_nat k < 63)%N) by (apply (N.pow_lt_mono_r_iff 2); lia).
  assert (Hi : (2 * 2 ^ N.of_nat k mod 2 ^ 64 = 2 ^ N.of_nat (Datatypes.S k))%N).
  { rewrite N.mod_small; [rewrite Nat2N.inj_succ, N.pow_succ_r'; reflexivity|]. rewrite <- N.pow_succ_r'. apply N.pow_lt_mono_r; lia. }
  assert (Ha' : inside O ans' (ppow x (N.to_nat (n mod 2 ^ N.of_nat (Datatypes.S k))))).
  { unfold ans'. rewrite Nat2N.inj_succ, mod_step, land_pow2. destruct (N.testbit n (N.of_nat k)) eqn:Eb.
    - destruct (N.eqb_spec (2 ^ N.of_nat k) 0) as [E|E]; [destruct (N.pow_nonzero 2 (N.of_nat k) ltac:(discriminate) E)|]. cbn [negb].
      rewrite N2Nat.inj_add, ppow_add, pow_nat. apply mul_sound; assumption.
    - cbn [N.eqb negb]. rewrite N.add_0_r. exact Ha. }
  assert (Ht' : inside O (sqr tmp) (ppow x (2 ^ Datatypes.S k))).
  { replace (2 ^ Datatypes.S k) with (2 ^ k + 2 ^ k) by (cbn [Nat.pow]; lia). rewrite ppow_add. apply sqr_sound, Ht. }
  destruct (N.ltb_spec n (2 ^ N.of_nat (Datatypes.S k))) as [L|L].
  - exists ans'. split.
    + intros [|fuel] Hf; [lia|]. cbn [pow_loop]. fold ans'. rewrite Hi. apply N.ltb_lt in L. rewrite L. reflexivity.
    + rewrite N.mod_small in Ha' by exact L. exact Ha'.
  - destruct (N.eqb_spec (2 ^ N.of_nat (Datatypes.S k)) n) as [E|E].
    + exists (sqr tmp). split.
      * intros [|fuel] Hf; [lia|]. cbn [pow_loop]. fold ans'. rewrite Hi. apply N.ltb_ge in L. rewrite L. apply N.eqb_eq in E. rewrite E. reflexivity.
      * rewrite <- E, pow_nat. exact Ht'.
    + destruct d as [|d]; [replace (k + 1) with (Datatypes.S k) in Hd by lia; lia|].
      destruct (IH d ltac:(lia) (Datatypes.S k) ans' (sqr tmp) L) as (J & TJ & IJ); [replace (Datatypes.S k + Datatypes.S d) with (k + Datatypes.S (Datatypes.S d)) by lia; exact Hd|exact Ha'|exact Ht'|].
      exists J. split; [|exact IJ]. intros [|fuel] Hf; [lia|]. cbn [pow_loop]. fold ans'. rewrite Hi. apply N.ltb_ge in L. rewrite L. apply N.eqb_neq in E. rewrite E. apply TJ. lia.
Qed.
Lemma ppow_1 x : ppow x 1 = x. Proof. apply mul_1_l. Qed.
Lemma pow_ok A x n : (n < 2 ^ 63)%N -> inside O A x -> exists J, (forall fuel, 64 <= fuel -> pow mul sqr fuel A n = Ok J) /\ inside O J (ppow x (N.to_nat n)).
Proof.
  intros Hn Hx. unfold pow. destruct (N.eqb_spec n 1) as [->|N1]; [exists A; split; [reflexivity|change (N.to_nat 1) with 1; rewrite ppow_1; exact Hx]|].
  destruct (N.eqb_spec n 2) as [->|N2]; [exists (sqr A); split; [reflexivity|]|].
  { change (N.to_nat 2) with (1 + 1). rewrite ppow_add, ppow_1. apply sqr_sound, Hx. }
  assert (I1 : inside O one_interval (emb O 1)) by (split; apply (ple_refl P O)).
  destruct (N.eqb_spec n 0) as [->|N0]; [exists one_interval; split; [reflexivity|exact I1]|].
  destruct (pow_loop_ok n x ltac:(lia) 62 0 one_interval A) as (J & T & I); [cbn; lia|exact Hn|rewrite N.mod_1_r; exact I1|change (2 ^ 0) with 1; rewrite ppow_1; exact Hx|].
  exists J. split; [|exact I]. intros fuel Hf. apply T. lia.
Qed.
End Power.
Theorem C38_power : forall P (O : points P) (pmul : P -> P -> P),
  (forall x y z, pmul x (pmul y z) = pmul (pmul x y) z) -> (forall x, pmul (emb O 1) x = x) -> (forall x, pmul x (emb O 1) = x) ->
  forall mul sqr,
  (forall A B x y, inside O A x -> inside O B y -> inside O (mul A B) (pmul x y)) -> (forall A x, inside O A x -> inside O (sqr A) (pmul x x)) ->
  forall A x n, (n < 2 ^ 63)%N -> inside O A x ->
  exists J, (forall fuel, 64 <= fuel -> pow mul sqr fuel A n = Ok J) /\ inside O J (ppow O pmul x (N.to_nat n)).
Proof. intros. apply pow_ok; assumption. Qed.
Print Assumptions C38_power.
(** From 2^63 on (unless n is 2^63 itself) the loop never ends: index becomes 0. *)
Lemma pow_zero mul sqr n : (0 < n)%N -> forall fuel ans tmp, pow_loop mul sqr fuel n 0 ans tmp = OutOfFuel.
Proof.
  intros Hn. induction fuel as [|fuel IH]; intros ans tmp; [reflexivity|]. cbn [pow_loop]. change (2 * 0 mod 2 ^ 64)%N with 0%N.
  destruct (N.ltb_spec n 0) as [L|L]; [lia|]. destruct (N.eqb_spec 0 n) as [E|E]; [lia|]. apply IH.
Qed.
Theorem C38_power_huge_refuted : forall mul sqr A n, (2 ^ 63 < n < 2 ^ 64)%N -> forall fuel, pow mul sqr fuel A n = OutOfFuel.
Proof.
  intros mul sqr A n Hn fuel. unfold pow. destruct (N.eqb_spec n 1) as [->|_]; [lia|]. destruct (N.eqb_spec n 2) as [->|_]; [lia|]. destruct (N.eqb_spec n 0) as [->|_]; [lia|].
  assert (Gen : forall d k fuel ans tmp, k + d = 63 -> pow_loop mul sqr fuel n (2 ^ N.of_nat k) ans tmp = OutOfFuel); [|apply (Gen 63 0 fuel one_interval A eq_refl)].
  induction d as [|d IH]; intros k [|fu] ans tmp Hk; try reflexivity; cbn [pow_loop].
  - replace k with 63 by lia. change (2 * 2 ^ N.of_nat 63 mod 2 ^ 64)%N with 0%N. destruct (N.ltb_spec n 0) as [L|L]; [lia|]. destruct (N.eqb_spec 0 n) as [E|E]; [lia|]. apply pow_zero. lia.
  - assert (Hi : (2 * 2 ^ N.of_nat k mod 2 ^ 64 = 2 ^ N.of_nat (Datatypes.S k))%N).
    { rewrite N.mod_small; [rewrite Nat2N.inj_succ, N.pow_succ_r'; reflexivity|]. rewrite <- N.pow_succ_r'. apply N.pow_lt_mono_r; lia. }
    rewrite Hi. assert (L : (2 ^ N.of_nat (Datatypes.S k) <= 2 ^ 63)%N) by (apply N.pow_le_mono_r; lia).
    destruct (N.ltb_spec n (2 ^ N.of_nat (Datatypes.S k))) as [L'|L']; [lia|]. destruct (N.eqb_spec (2 ^ N.of_nat (Datatypes.S k)) n) as [E|E]; [lia|]. apply IH. lia.
Qed.
Print Assumptions C38_power_huge_refuted.

(** ** Concrete case: the rationals *)
Definition q_points : points Q.
Proof.
  refine {| ple := Qle; emb := fun q => q |}.
  - apply Qle_refl. - apply Qle_trans. - intros x y. destruct (Qlt_le_dec x y); [left; apply Qlt_le_weak; assumption|right; assumption]. - reflexivity.
Defined.
Example inter_case : inter (Itv NInf (Fin 3)) (Itv (Fin 1) PInf) = Itv (Fin 1) (Fin 3) /\ inter (Itv NInf (Fin 0)) (Itv (Fin 1) PInf) = NAN_interval
  /\ hull (Itv (Fin 0) (Fin 1)) (Itv (Fin 4) (Fin 5)) = Itv (Fin 0) (Fin 5) /\ proper (Itv (Fin 0) (Fin 1)) /\ proper inf_interval.
Proof. repeat split; try (right; cbn; discriminate || exact I). Qed.
(** the hypotheses of C38_power are met over Q, e.g. by the coarsest sound product *)
Example power_case : exists mul sqr,
  (forall A B x y, inside q_points A x -> inside q_points B y -> inside q_points (mul A B) (x * y)%Q) /\
  (forall A x, inside q_points A x -> inside q_points (sqr A) (x * x)%Q) /\
  (forall x y z : Q, x * (y * z) = x * y * z)%Q /\ (forall x : Q, emb q_points 1 * x = x)%Q /\ (forall x : Q, x * emb q_points 1 = x)%Q /\
  exists J, pow mul sqr 64 (Itv (Fin 2) (Fin 3)) 5 = Ok J.
Proof.
  exists (fun _ _ => inf_interval), (fun _ => inf_interval). split; [intros; split; exact I|]. split; [intros; split; exact I|].
  split; [intros [a b] [c d] [e f]; unfold Qmult; cbn [Qnum Qden]; rewrite Z.mul_assoc, Pos.mul_assoc; reflexivity|]. split; [intros [a b]; unfold Qmult; cbn; destruct a; reflexivity|].
  split; [intros [a b]; unfold Qmult; cbn [q_points emb Qnum Qden]; rewrite Z.mul_1_r, Pos.mul_1_r; reflexivity|]. eexists. reflexivity.
Qed.
