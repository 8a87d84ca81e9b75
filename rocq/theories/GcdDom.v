(** * GCD domains: if [A] is a GCD domain, so are the polynomials over [A] in one more element [x].

    Pure algebra (Gauss's lemma and the primitive pseudo-Euclidean algorithm), independent of the code;
    used to show that greatest common divisors of multivariate polynomials exist. *)
From Coq Require Import Ring_theory Ring Setoid Morphisms Lia Arith.
From Verif Require Import Prelude.

Section Dom.
Context {R : Type} (rO rI : R) (radd rmul rsub : R -> R -> R) (ropp : R -> R) (req : R -> R -> Prop).
Context (Req : Equivalence req) (Rext : ring_eq_ext radd rmul ropp req).
Context (Rth : ring_theory rO rI radd rmul rsub ropp req).
Context (dec0 : forall a, req a rO \/ ~ req a rO).
Add Ring Rring : Rth (setoid Req Rext).
Local Existing Instance Req.
Local Instance radd_m : Proper (req ==> req ==> req) radd := Radd_ext Rext.
Local Instance rmul_m : Proper (req ==> req ==> req) rmul := Rmul_ext Rext.
Local Instance ropp_m : Proper (req ==> req) ropp := Ropp_ext Rext.
Local Infix "==" := req (at level 70).
Local Infix "+" := radd.
Local Infix "*" := rmul.
Local Notation "- a" := (ropp a).

(** [d] divides [p] with a cofactor in [A]. *)
Definition dvd (A : R -> Prop) (d p : R) : Prop := exists q, A q /\ p == q * d.

(** [g] is a greatest common divisor of [a] and [b] in [A]. *)
Definition isgcd (A : R -> Prop) (a b g : R) : Prop := A g /\ dvd A g a /\ dvd A g b /\
    forall d, A d -> dvd A d a -> dvd A d b -> dvd A d g.

Record gdom (A : R -> Prop) : Prop := {
  gd_proper : forall a b, a == b -> A a -> A b;
  gd_0 : A rO;
  gd_1 : A rI;
  gd_add : forall a b, A a -> A b -> A (a + b);
  gd_mul : forall a b, A a -> A b -> A (a * b);
  gd_opp : forall a, A a -> A (- a);
  gd_integral : forall a b, A a -> A b -> a * b == rO -> a == rO \/ b == rO;
  gd_gcd : forall a b, A a -> A b -> exists g, isgcd A a b g
}.

Section One.
Context (A : R -> Prop) (HA : gdom A).
Let g0 := gd_0 A HA.
Let g1 := gd_1 A HA.
Let gadd := gd_add A HA.
Let gmul := gd_mul A HA.
Let gopp := gd_opp A HA.
Local Hint Resolve g0 g1 gadd gmul gopp : gd.

Lemma dvd_proper d d' p p' : d == d' -> p == p' -> dvd A d p -> dvd A d' p'.
Proof. intros E E' [q [Hq H]]. exists q. split; [exact Hq|]. rewrite <- E, <- E'. exact H. Qed.
Lemma dvd_refl p : dvd A p p.
Proof. exists rI. split; [auto with gd|ring]. Qed.
Lemma dvd_trans a b c : dvd A a b -> dvd A b c -> dvd A a c.
Proof. intros [q [Hq H]] [q' [Hq' H']]. exists (q' * q). split; [auto with gd|]. rewrite H', H. ring. Qed.
Lemma dvd_0 a : dvd A a rO.
Proof. exists rO. split; [auto with gd|ring]. Qed.
Lemma dvd_add d a b : dvd A d a -> dvd A d b -> dvd A d (a + b).
Proof. intros [q [Hq H]] [q' [Hq' H']]. exists (q + q'). split; [auto with gd|]. rewrite H', H. ring. Qed.
Lemma dvd_opp d a : dvd A d a -> dvd A d (- a).
Proof. intros [q [Hq H]]. exists (- q). split; [auto with gd|]. rewrite H. ring. Qed.
Lemma dvd_mull d a b : A b -> dvd A d a -> dvd A d (b * a).
Proof. intros Hb [q [Hq H]]. exists (b * q). split; [auto with gd|]. rewrite H. ring. Qed.
Lemma dvd_mulr d a b : A b -> dvd A d a -> dvd A d (a * b).
Proof. intros Hb [q [Hq H]]. exists (b * q). split; [auto with gd|]. rewrite H. ring. Qed.
Lemma dvd_mul2 a b c d : dvd A a b -> dvd A c d -> dvd A (a * c) (b * d).
Proof. intros [q [Hq H]] [q' [Hq' H']]. exists (q * q'). split; [auto with gd|]. rewrite H', H. ring. Qed.
Lemma dvd_A d p : A d -> dvd A d p -> A p.
Proof. intros Hd [q [Hq H]]. apply (gd_proper A HA (q * d)); [symmetry; exact H|auto with gd]. Qed.
Lemma cancel a b c : A a -> A b -> A c -> ~ c == rO -> a * c == b * c -> a == b.
Proof.
  intros Ha Hb Hc N E. destruct (gd_integral A HA (a + - b) c) as [H|H]; auto with gd.
  - transitivity (a * c + - (b * c)); [ring|]. rewrite E. ring.
  - transitivity (a + - b + b); [ring|]. rewrite H. ring.
  - contradiction.
Qed.
Lemma dvd_cancel c a b : A a -> A b -> A c -> ~ c == rO -> dvd A (c * a) (c * b) -> dvd A a b.
Proof.
  intros Ha Hb Hc N [q [Hq H]]. exists q. split; [exact Hq|]. apply (cancel b (q * a) c); auto with gd.
  transitivity (c * b); [ring|]. rewrite H. ring.
Qed.

Lemma isgcd_mul a b g c : A a -> A b -> A c -> isgcd A a b g -> isgcd A (c * a) (c * b) (c * g).
Proof.
  intros Ha Hb Hc [Hg [Ga [Gb U]]]. split; [auto with gd|].
  split; [apply dvd_mul2; [apply dvd_refl|exact Ga]|]. split; [apply dvd_mul2; [apply dvd_refl|exact Gb]|].
  destruct (dec0 c) as [Z0|N].
  { intros d Hd _ _. apply (dvd_proper d d rO); [reflexivity|rewrite Z0; ring|apply dvd_0]. }
  destruct (gd_gcd A HA (c * a) (c * b)) as [h [Hh [H1 [H2 UH]]]]; auto with gd.
  assert (CH : dvd A c h).
  { apply UH; [exact Hc| |]; apply dvd_mulr; auto using dvd_refl. }
  destruct CH as [h' [Hh' Eh]]. assert (Eh2 : h == c * h') by (rewrite Eh; ring).
  assert (dvd A h' g) as D.
  { apply U; [exact Hh'| |]; apply (dvd_cancel c); auto; apply (dvd_proper h (c * h')  _ _ Eh2 (reflexivity _)); assumption. }
  intros d Hd D1 D2. apply (dvd_trans _ h); [apply UH; assumption|].
  apply (dvd_proper (c * h') h (c * g) (c * g)); [symmetry; exact Eh2|reflexivity|]. apply dvd_mul2; [apply dvd_refl|exact D].
Qed.

Definition coprime a b := forall d, A d -> dvd A d a -> dvd A d b -> dvd A d rI.

Lemma coprime_isgcd a b : A a -> A b -> coprime a b -> isgcd A a b rI.
Proof.
  intros Ha Hb H. split; [auto with gd|]. split; [exists a; split; [auto|ring]|]. split; [exists b; split; [auto|ring]|]. exact H.
Qed.
Lemma euclid h a b : A h -> A a -> A b -> coprime h a -> dvd A h (a * b) -> dvd A h b.
Proof.
  intros Hh Ha Hb CP D. apply coprime_isgcd in CP; auto.
  apply (isgcd_mul _ _ _ b) in CP; auto. destruct CP as [_ [_ [_ U]]].
  apply (dvd_proper h h (b * rI) b); [reflexivity|ring|]. apply U; auto.
  - apply dvd_mull; auto using dvd_refl.
  - apply (dvd_proper h h (a * b)); [reflexivity|ring|exact D].
Qed.
End One.

(** Polynomials over [A] in [x]. *)
Section Step.
Context (A : R -> Prop) (HA : gdom A) (x : R).
Let g0 := gd_0 A HA.
Let g1 := gd_1 A HA.
Let gadd := gd_add A HA.
Let gmul := gd_mul A HA.
Let gopp := gd_opp A HA.
Local Hint Resolve g0 g1 gadd gmul gopp : gd.

Fixpoint pw (n : nat) : R := match n with O => rI | S n' => x * pw n' end.
Lemma pw_add n m : pw (n + m) == pw n * pw m.
Proof. induction n; cbn [pw Nat.add]; [ring|]. rewrite IHn. ring. Qed.

(** degree less than n *)
Fixpoint D (n : nat) (p : R) : Prop :=
  match n with
  | O => p == rO
  | S n' => exists p1 a, D n' p1 /\ A a /\ p == p1 + a * pw n'
  end.
Context (uniq : forall n p p' a a', D n p -> D n p' -> A a -> A a' -> p + a * pw n == p' + a' * pw n -> a == a').
Definition B (p : R) : Prop := exists n, D n p.

Lemma D_proper n p q : p == q -> D n p -> D n q.
Proof. destruct n; cbn; [intros E H; rewrite <- E; exact H|]. intros E [p1 [a [H1 [H2 H3]]]]. exists p1, a. rewrite <- E. auto. Qed.
Lemma D_0 n : D n rO.
Proof. induction n; cbn; [reflexivity|]. exists rO, rO. split; [exact IHn|]. split; [auto with gd|ring]. Qed.
Lemma D_S n p : D n p -> D (S n) p.
Proof. intros H. exists p, rO. split; [exact H|]. split; [auto with gd|ring]. Qed.
Lemma D_le n m p : (n <= m)%nat -> D n p -> D m p.
Proof. induction 1; [auto|]. intros H'. apply D_S. auto. Qed.
Lemma D_add n p q : D n p -> D n q -> D n (p + q).
Proof.
  revert p q. induction n; cbn; [intros p q H H'; rewrite H, H'; ring|].
  intros p q [p1 [a [H1 [Ha E]]]] [q1 [b [H2 [Hb E']]]]. exists (p1 + q1), (a + b). split; [auto|]. split; [auto with gd|]. rewrite E, E'. ring.
Qed.
Lemma D_scale n c p : A c -> D n p -> D n (c * p).
Proof.
  intros Hc. revert p. induction n; cbn; [intros p H; rewrite H; ring|].
  intros p [p1 [a [H1 [Ha E]]]]. exists (c * p1), (c * a). split; [auto|]. split; [auto with gd|]. rewrite E. ring.
Qed.
Lemma D_opp n p : D n p -> D n (- p).
Proof. intros H. apply (D_proper n (- rI * p)); [ring|]. apply D_scale; auto with gd. Qed.
Lemma D_x n p : D n p -> D (S n) (p * x).
Proof.
  revert p. induction n; intros p H.
  - cbn in H. apply (D_proper 1 rO); [rewrite H; ring|]. apply D_0.
  - destruct H as [p1 [a [H1 [Ha E]]]]. apply IHn in H1. exists (p1 * x), a. split; [exact H1|]. split; [exact Ha|].
    rewrite E. cbn [pw]. ring.
Qed.
Lemma D_pw n m p : D n p -> D (n + m) (p * pw m).
Proof.
  intros H. induction m; cbn [pw]; [rewrite Nat.add_0_r; apply (D_proper n p); [ring|exact H]|].
  rewrite Nat.add_succ_r. apply (D_proper _ (p * pw m * x)); [ring|]. apply D_x. exact IHm.
Qed.
Lemma D_mul n m p q : D n p -> D (S m) q -> D (n + m) (p * q).
Proof.
  revert p q. induction n; intros p q Hp Hq.
  - cbn in Hp. apply (D_proper _ rO); [rewrite Hp; ring|]. apply D_0.
  - destruct Hp as [p1 [a [H1 [Ha E]]]]. apply (D_proper _ (p1 * q + a * q * pw n)); [rewrite E; ring|].
    apply D_add.
    + apply (D_le (n + m)); [lia|]. apply IHn; assumption.
    + replace (S n + m)%nat with (S m + n)%nat by lia. apply D_pw. apply D_scale; assumption.
Qed.
Lemma D_1 p : D 1 p <-> A p.
Proof.
  split.
  - intros [p1 [a [H1 [Ha E]]]]. cbn in H1. apply (gd_proper A HA a); [rewrite E, H1; cbn [pw]; ring|exact Ha].
  - intros H. exists rO, p. split; [change (rO == rO); reflexivity|]. split; [exact H|]. cbn [pw]. ring.
Qed.
Lemma A_B p : A p -> B p.
Proof. intros H. exists 1%nat. apply D_1, H. Qed.
Lemma B_proper p q : p == q -> B p -> B q.
Proof. intros E [n H]. exists n. apply (D_proper n p); assumption. Qed.
Lemma B_add p q : B p -> B q -> B (p + q).
Proof. intros [n H] [m H']. exists (Nat.max n m). apply D_add; [apply (D_le n)|apply (D_le m)]; auto; lia. Qed.
Lemma B_mul p q : B p -> B q -> B (p * q).
Proof. intros [n H] [m H']. exists (n + m)%nat. apply D_mul; [exact H|apply D_S, H']. Qed.
Lemma B_opp p : B p -> B (- p).
Proof. intros [n H]. exists n. apply D_opp, H. Qed.
Lemma B_pw n : B (pw n).
Proof. induction n; cbn [pw]; [apply A_B; auto with gd|]. apply B_mul; [|exact IHn].
  exists 2%nat. apply (D_proper 2 (rI * x)); [ring|]. apply D_x. apply D_1. auto with gd. Qed.
Lemma B_0 : B rO.
Proof. apply A_B. auto with gd. Qed.
Lemma B_1 : B rI.
Proof. apply A_B. auto with gd. Qed.
Local Hint Resolve B_add B_mul B_opp B_pw B_0 B_1 A_B : gd.

(** Leading coefficient of a non-zero polynomial. *)
Lemma lead n p : D n p -> ~ p == rO -> exists m p1 a, (m < n)%nat /\ D m p1 /\ A a /\ ~ a == rO /\ p == p1 + a * pw m.
Proof.
  revert p. induction n; intros p H N; [contradiction|].
  destruct H as [p1 [a [H1 [Ha E]]]]. destruct (dec0 a) as [Z0|Na].
  - destruct (IHn p1 H1) as [m [p2 [b [Hm H]]]]; [intros E1; apply N; rewrite E, E1, Z0; ring|].
    exists m, p2, b. split; [lia|]. destruct H as [X1 [X2 [X3 X4]]]. split; [exact X1|]. split; [exact X2|]. split; [exact X3|].
    rewrite E, Z0, X4. ring.
  - exists n, p1, a. repeat (split; [auto|]). exact E.
Qed.

Lemma top_0 n p a : D n p -> A a -> p + a * pw n == rO -> a == rO /\ p == rO.
Proof.
  intros H Ha E. assert (a == rO) as Z0.
  { apply (uniq n p rO a rO H (D_0 n) Ha (gd_0 A HA)). rewrite E. ring. }
  split; [exact Z0|]. rewrite <- E, Z0. ring.
Qed.

Lemma B_integral p q : B p -> B q -> p * q == rO -> p == rO \/ q == rO.
Proof.
  intros [n Hp] [m Hq] E. destruct (dec0 p) as [|Np]; [auto|]. destruct (dec0 q) as [|Nq]; [auto|]. exfalso.
  destruct (lead n p Hp Np) as [i [p1 [a [_ [H1 [Ha [Na Ep]]]]]]]. destruct (lead m q Hq Nq) as [j [q1 [b [_ [H2 [Hb [Nb Eq]]]]]]].
  destruct (top_0 (i + j) (p1 * q + a * pw i * q1) (a * b)) as [Z0 _]; auto with gd.
  - apply D_add.
    + apply D_mul; [exact H1|]. exists q1, b. auto.
    + rewrite Nat.add_comm. apply (D_proper _ (a * q1 * pw i)); [ring|]. apply D_pw, D_scale; assumption.
  - rewrite <- E. rewrite Ep, Eq, pw_add. ring.
  - destruct (gd_integral A HA a b Ha Hb Z0); contradiction.
Qed.

(** A-multiples: coefficientwise. *)
Lemma dvd_top d n p a : A d -> ~ d == rO -> D n p -> A a -> dvd B d (p + a * pw n) -> dvd A d a /\ exists q, D n q /\ p == q * d.
Proof.
  intros Hd Nd Hp Ha [q [[m Hq] E]].
  assert (exists q', D (S n) q' /\ p + a * pw n == q' * d) as [q' [[q1 [b [H1 [Hb Eq]]]] E']].
  { revert q Hq E. induction m; intros q Hq E.
    - exists rO. split; [apply D_0|]. rewrite E. cbn in Hq. rewrite Hq. ring.
    - destruct (le_lt_dec (S m) (S n)) as [L|L]; [exists q; split; [apply (D_le (S m)); assumption|exact E]|].
      destruct Hq as [q1 [b [H1 [Hb Eq]]]].
      assert (b == rO) as Z0.
      { destruct (top_0 m (q1 * d + - (p + a * pw n)) (b * d)) as [Y _]; auto with gd.
        - apply D_add; [apply (D_proper m (d * q1)); [ring|apply D_scale; assumption]|]. apply D_opp. apply (D_le (S n)); [lia|].
          exists p, a. split; [exact Hp|]. split; [exact Ha|reflexivity].
        - rewrite E, Eq. ring.
        - destruct (gd_integral A HA b d Hb Hd Y); [assumption|contradiction]. }
      apply (IHm q1 H1). rewrite E, Eq, Z0. ring. }
  assert (EQ : p + a * pw n == q1 * d + b * d * pw n) by (rewrite E', Eq; ring).
  assert (Dq : D n (q1 * d)) by (apply (D_proper n (d * q1)); [ring|apply D_scale; assumption]).
  assert (a == b * d) as Ea by (apply (uniq n p (q1 * d)); auto with gd).
  split; [exists b; auto|]. exists q1. split; [exact H1|].
  transitivity (p + a * pw n + - (a * pw n)); [ring|]. rewrite EQ, Ea. ring.
Qed.

Lemma dvd_0_inv (P : R -> Prop) p : dvd P rO p -> p == rO.
Proof. intros [q [_ E]]. rewrite E. ring. Qed.
Lemma dvd_AB d p : dvd A d p -> dvd B d p.
Proof. intros [q [Hq E]]. exists q. split; [apply A_B; exact Hq|exact E]. Qed.
Lemma dvd_BA d p : A d -> A p -> dvd B d p -> dvd A d p.
Proof.
  intros Hd Hp H. destruct (dec0 d) as [Z0|Nd].
  - assert (p == rO) as E. { apply (dvd_0_inv B). destruct H as [q [Hq E]]. exists q. split; [exact Hq|]. rewrite E, Z0. reflexivity. }
    exists rO. split; [auto with gd|]. rewrite E. ring.
  - apply (dvd_top d 0 rO p); auto; [change (rO == rO); reflexivity|]. destruct H as [q [Hq E]]. exists q. split; [exact Hq|]. rewrite <- E. cbn [pw]. ring.
Qed.

Definition iscont (p c : R) : Prop := A c /\ dvd B c p /\ forall d, A d -> dvd B d p -> dvd A d c.

Lemma BP d d' p p' : d == d' -> p == p' -> dvd B d p -> dvd B d' p'.
Proof. intros E E' [q [Hq H]]. exists q. split; [exact Hq|]. rewrite <- E, <- E'. exact H. Qed.
Lemma BT a b c : dvd B a b -> dvd B b c -> dvd B a c.
Proof. intros [q [Hq H]] [q' [Hq' H']]. exists (q' * q). split; [auto with gd|]. rewrite H', H. ring. Qed.
Lemma BR p : dvd B p p.
Proof. exists rI. split; [auto with gd|ring]. Qed.
Lemma BADD d a b : dvd B d a -> dvd B d b -> dvd B d (a + b).
Proof. intros [q [Hq H]] [q' [Hq' H']]. exists (q + q'). split; [auto with gd|]. rewrite H', H. ring. Qed.
Lemma BOPP d a : dvd B d a -> dvd B d (- a).
Proof. intros [q [Hq H]]. exists (- q). split; [auto with gd|]. rewrite H. ring. Qed.
Lemma BML d a b : B b -> dvd B d a -> dvd B d (b * a).
Proof. intros Hb [q [Hq H]]. exists (b * q). split; [auto with gd|]. rewrite H. ring. Qed.
Lemma BM2 a b c d : dvd B a b -> dvd B c d -> dvd B (a * c) (b * d).
Proof. intros [q [Hq H]] [q' [Hq' H']]. exists (q * q'). split; [auto with gd|]. rewrite H', H. ring. Qed.
Lemma B0 d : dvd B d rO.
Proof. exists rO. split; [auto with gd|ring]. Qed.
Lemma Bcancel a b c : B a -> B b -> B c -> ~ c == rO -> a * c == b * c -> a == b.
Proof.
  intros Ha Hb Hc N E. destruct (B_integral (a + - b) c) as [H|H]; auto with gd.
  - transitivity (a * c + - (b * c)); [ring|]. rewrite E. ring.
  - transitivity (a + - b + b); [ring|]. rewrite H. ring.
  - contradiction.
Qed.

Lemma cont_exists p : B p -> exists c, iscont p c.
Proof.
  intros [n H]. revert p H. induction n; intros p H.
  - cbn in H. exists rO. split; [auto with gd|]. split; [exists rI; split; [auto with gd|rewrite H; ring]|].
    intros d _ _. exists rO. split; [auto with gd|ring].
  - destruct H as [p1 [a [H1 [Ha E]]]]. destruct (IHn p1 H1) as [c1 [Hc [D1 U1]]].
    destruct (gd_gcd A HA c1 a Hc Ha) as [g [Hg [G1 [G2 UG]]]]. exists g. split; [exact Hg|]. split.
    + apply (BP g g (p1 + a * pw n)); [reflexivity|symmetry; exact E|].
      apply BADD; [apply (BT _ c1); [apply dvd_AB, G1|exact D1]|].
      apply (BP g g (pw n * a)); [reflexivity|ring|]. apply BML; [apply B_pw|apply dvd_AB, G2].
    + intros d Hd Dd. destruct (dec0 d) as [Z0|Nd].
      * assert (p == rO) as Ep. { apply (dvd_0_inv B). apply (BP d rO p p Z0 (reflexivity _) Dd). }
        assert (a == rO /\ p1 == rO) as [Ea Ep1]. { apply (top_0 n); auto. rewrite <- E. exact Ep. }
        apply UG; [exact Hd| |]; [|exists rO; split; [auto with gd|rewrite Ea; ring]].
        apply U1; [exact Hd|]. apply (BP d d rO); [reflexivity|symmetry; exact Ep1|apply B0].
      * destruct (dvd_top d n p1 a Hd Nd H1 Ha) as [DA [q [Hq Eq]]].
        { apply (BP d d p); [reflexivity|exact E|exact Dd]. }
        apply UG; [exact Hd| |exact DA]. apply U1; [exact Hd|]. exists q. split; [exists n; exact Hq|exact Eq].
Qed.

Lemma cont_scale a p c : A a -> B p -> iscont p c -> iscont (a * p) (a * c).
Proof.
  intros Ha Hp [Hc [Dc U]]. split; [auto with gd|]. split; [apply BM2; [apply BR|exact Dc]|].
  intros d Hd Dd. destruct (cont_exists (a * p)) as [h [Hh [Dh Uh]]]; [auto with gd|].
  apply (dvd_trans A HA d h); [apply Uh; assumption|].
  destruct (dec0 a) as [Z0|Na].
  { apply (dvd_proper A h h rO); [reflexivity|rewrite Z0; ring|]. apply (dvd_0 A HA). }
  assert (dvd A a h) as [h' [Hh' Eh]].
  { apply Uh; [exact Ha|]. exists p. split; [exact Hp|ring]. }
  apply (dvd_proper A (a * h') h (a * c) (a * c)); [rewrite Eh; ring|reflexivity|].
  apply (dvd_mul2 A HA); [apply (dvd_refl A HA)|]. apply U; [exact Hh'|].
  destruct Dh as [q [Hq Eq]]. exists q. split; [exact Hq|].
  apply (Bcancel p (q * h') a); auto with gd. transitivity (a * p); [ring|]. rewrite Eq, Eh. ring.
Qed.

Definition prim (p : R) : Prop := forall d, A d -> dvd B d p -> dvd A d rI.
Lemma prim_cont p c : prim p -> iscont p c -> dvd A c rI.
Proof. intros H [Hc [Dc _]]. apply H; assumption. Qed.
Lemma cont_dvd_prim p c d : prim p -> iscont p c -> A d -> dvd B d p -> dvd A d rI.
Proof. intros H _ Hd Dd. apply H; assumption. Qed.

Lemma pp_exists p : B p -> ~ p == rO -> exists c q, iscont p c /\ B q /\ prim q /\ p == c * q /\ ~ c == rO.
Proof.
  intros Hp Np. destruct (cont_exists p Hp) as [c HC]. pose proof HC as [Hc [[q [Hq E]] U]].
  assert (Nc : ~ c == rO) by (intros Z0; apply Np; rewrite E, Z0; ring).
  exists c, q. split; [exact HC|]. split; [exact Hq|]. split; [|split; [rewrite E; ring|exact Nc]].
  intros d Hd Dd. assert (dvd A (d * c) c) as [e [He Ee]].
  { apply U; [auto with gd|]. apply (BP (d * c) (d * c) (q * c)); [reflexivity|symmetry; exact E|]. apply BM2; [exact Dd|apply BR]. }
  exists e. split; [exact He|]. apply (cancel A HA rI (e * d) c); auto with gd. transitivity c; [ring|]. rewrite Ee at 1. ring.
Qed.

(** Primitive part, same degree. *)
Lemma pp_deg n p : D n p -> ~ p == rO -> exists c p', iscont p c /\ D n p' /\ prim p' /\ p == c * p' /\ ~ c == rO /\ ~ p' == rO.
Proof.
  intros Hp Np. destruct (pp_exists p (ex_intro _ n Hp) Np) as [c [p' [HC [Hp' [PR [E Nc]]]]]].
    exists c. assert (A c) as Hc by apply HC.
    destruct n as [|n]; [contradiction|]. destruct Hp as [p1 [a [H1 [Ha Ep]]]].
    destruct (dvd_top c n p1 a Hc Nc H1 Ha) as [[b [Hb Eb]] [p1' [H1' E1']]].
    { exists p'. split; [exact Hp'|]. rewrite <- Ep, E. ring. }
    assert (p' == p1' + b * pw n) as E'.
    { apply (Bcancel p' (p1' + b * pw n) c); auto with gd; [apply B_add; [exists n; exact H1'|auto with gd]|].
      transitivity p; [rewrite E; ring|]. rewrite Ep, E1', Eb. ring. }
    exists p'. split; [exact HC|]. split; [exists p1', b; auto|]. split; [exact PR|]. split; [exact E|]. split; [exact Nc|].
    intros Z0. apply Np. rewrite E, Z0. ring.
Qed.

(** Gauss: the content of a product divides the product of the contents. *)
Lemma gauss_aux k : forall n m p q cp cq d, (n + m <= k)%nat -> D n p -> D m q -> iscont p cp -> iscont q cq ->
  A d -> dvd B d (p * q) -> dvd A d (cp * cq).
Proof.
  induction k as [|k IH]; intros n m p q cp cq d L Hp Hq Cp Cq Hd Dd.
  { assert (n = 0 /\ m = 0)%nat as [-> ->] by lia. cbn in Hp. assert (cp == rO) as Z0.
    { apply (dvd_0_inv A). apply Cp; [auto with gd|]. exists rO. split; [auto with gd|]. rewrite Hp. ring. }
    apply (dvd_proper A d d rO); [reflexivity|rewrite Z0; ring|apply (dvd_0 A HA)]. }
  destruct (dec0 p) as [Zp|Np].
  { assert (cp == rO) as Z0.
    { apply (dvd_0_inv A). apply Cp; [auto with gd|]. exists rO. split; [auto with gd|]. rewrite Zp. ring. }
    apply (dvd_proper A d d rO); [reflexivity|rewrite Z0; ring|apply (dvd_0 A HA)]. }
  destruct (dec0 q) as [Zq|Nq].
  { assert (cq == rO) as Z0.
    { apply (dvd_0_inv A). apply Cq; [auto with gd|]. exists rO. split; [auto with gd|]. rewrite Zq. ring. }
    apply (dvd_proper A d d rO); [reflexivity|rewrite Z0; ring|apply (dvd_0 A HA)]. }
  destruct (pp_deg n p Hp Np) as [c1 [p' [HC1 [Hp' [PR1 [E1 [Nc1 Np']]]]]]].
  destruct (pp_deg m q Hq Nq) as [c2 [q' [HC2 [Hq' [PR2 [E2 [Nc2 Nq']]]]]]].
  assert (Bp' : B p') by (exists n; exact Hp'). assert (Bq' : B q') by (exists m; exact Hq').
  assert (Hc1 : A c1) by apply HC1. assert (Hc2 : A c2) by apply HC2.
  assert (D12 : dvd A (c1 * c2) (cp * cq)).
  { apply (dvd_mul2 A HA); [apply Cp; [exact Hc1|apply HC1]|apply Cq; [exact Hc2|apply HC2]]. }
  destruct (cont_exists (p' * q')) as [h HCh]; [auto with gd|]. pose proof HCh as [Hh [Dh Uh]].
  assert (DC : dvd A d (c1 * c2 * h)).
  { apply (cont_scale (c1 * c2) (p' * q') h); auto with gd.
    apply (BP d d (p * q)); [reflexivity|rewrite E1, E2; ring|exact Dd]. }
  enough (dvd A h rI) as UN.
  { apply (dvd_trans A HA d (c1 * c2)); [|exact D12]. apply (dvd_trans A HA d (c1 * c2 * h)); [exact DC|].
    apply (dvd_proper A (c1 * c2 * h) (c1 * c2 * h) (c1 * c2 * rI)); [reflexivity|ring|]. apply (dvd_mul2 A HA); [apply (dvd_refl A HA)|exact UN]. }
  destruct (dec0 h) as [Zh|Nh].
  { exfalso. assert (p' * q' == rO) as Z0. { apply (dvd_0_inv B). apply (BP h rO (p' * q') (p' * q') Zh (reflexivity _) Dh). }
    destruct (B_integral p' q' Bp' Bq' Z0); contradiction. }
  destruct (lead n p' Hp' Np') as [i [p1 [a [Li [H1 [Ha [Na Ep]]]]]]].
  destruct (lead m q' Hq' Nq') as [j [q1 [b [Lj [H2 [Hb [Nb Eq]]]]]]].
  (* a common divisor of h and one leading coefficient is a unit *)
  assert (CPa : coprime A h a).
  { intros e He E_h E_a. apply PR1; [exact He|].
    destruct (cont_exists p1) as [k1 HK1]; [exists i; exact H1|]. destruct (cont_exists q' Bq') as [k2 HK2].
    apply (BP e e (p1 + a * pw i)); [reflexivity|symmetry; exact Ep|]. apply BADD.
    - assert (dvd A e (k1 * k2)) as De.
      { apply (IH i m p1 q'); auto; [lia|].
        apply (BP e e (p' * q' + - (q' * pw i * a))); [reflexivity|rewrite Ep; ring|].
        apply BADD; [apply (BT _ h); [apply dvd_AB, E_h|exact Dh]|]. apply BOPP, BML; [auto with gd|apply dvd_AB, E_a]. }
      assert (dvd A k2 rI) as U2 by (apply PR2; apply HK2).
      apply (BT e k1); [apply dvd_AB|apply HK1]. apply (dvd_trans A HA e (k1 * k2)); [exact De|].
      apply (dvd_proper A (k1 * k2) (k1 * k2) (k1 * rI)); [reflexivity|ring|]. apply (dvd_mul2 A HA); [apply (dvd_refl A HA)|exact U2].
    - apply (BP e e (pw i * a)); [reflexivity|ring|]. apply BML; [auto with gd|apply dvd_AB, E_a]. }
  assert (CPb : coprime A h b).
  { intros e He E_h E_b. apply PR2; [exact He|].
    destruct (cont_exists q1) as [k1 HK1]; [exists j; exact H2|]. destruct (cont_exists p' Bp') as [k2 HK2].
    apply (BP e e (q1 + b * pw j)); [reflexivity|symmetry; exact Eq|]. apply BADD.
    - assert (dvd A e (k2 * k1)) as De.
      { apply (IH n j p' q1); auto; [lia|].
        apply (BP e e (p' * q' + - (p' * pw j * b))); [reflexivity|rewrite Eq; ring|].
        apply BADD; [apply (BT _ h); [apply dvd_AB, E_h|exact Dh]|]. apply BOPP, BML; [auto with gd|apply dvd_AB, E_b]. }
      assert (dvd A k2 rI) as U2 by (apply PR1; apply HK2).
      apply (BT e k1); [apply dvd_AB|apply HK1]. apply (dvd_trans A HA e (k2 * k1)); [exact De|].
      apply (dvd_proper A (k2 * k1) (k2 * k1) (rI * k1)); [reflexivity|ring|]. apply (dvd_mul2 A HA); [exact U2|apply (dvd_refl A HA)].
    - apply (BP e e (pw j * b)); [reflexivity|ring|]. apply BML; [auto with gd|apply dvd_AB, E_b]. }
  assert (dvd A h (a * b)) as Hab.
  { apply (dvd_top h (i + j) (p1 * q' + a * pw i * q1) (a * b)); auto with gd.
    - apply D_add.
      + apply D_mul; [exact H1|]. exists q1, b. auto.
      + rewrite Nat.add_comm. apply (D_proper _ (a * q1 * pw i)); [ring|]. apply D_pw, D_scale; assumption.
    - apply (BP h h (p' * q')); [reflexivity|rewrite Ep, Eq, pw_add; ring|exact Dh]. }
  apply CPb; [exact Hh|apply (dvd_refl A HA)|]. apply (euclid A HA h a b); auto.
Qed.

Lemma gauss p q cp cq : B p -> B q -> iscont p cp -> iscont q cq -> iscont (p * q) (cp * cq).
Proof.
  intros [n Hp] [m Hq] Cp Cq. split; [apply (gd_mul A HA); [apply Cp|apply Cq]|].
  split; [apply BM2; [apply Cp|apply Cq]|]. intros d Hd Dd. apply (gauss_aux (n + m) n m p q cp cq d); auto.
Qed.

(** A primitive divisor of an A-multiple divides. *)
Lemma prim_dvd s p q : A s -> ~ s == rO -> B p -> B q -> prim q -> dvd B q (s * p) -> dvd B q p.
Proof.
  intros Hs Ns Hp Hq PR [u [Hu E]].
  destruct (cont_exists u Hu) as [cu HCu]. destruct (cont_exists q Hq) as [cq HCq].
  pose proof (gauss u q cu cq Hu Hq HCu HCq) as [_ [_ U]].
  assert (dvd A s (cu * cq)) as Ds.
  { apply U; [exact Hs|]. exists p. split; [exact Hp|]. rewrite <- E. ring. }
  assert (dvd A cq rI) as Uq by (apply PR; apply HCq).
  assert (dvd B s u) as [w [Hw Ew]].
  { apply (BT s cu); [apply dvd_AB|apply HCu]. apply (dvd_trans A HA s (cu * cq)); [exact Ds|].
    apply (dvd_proper A (cu * cq) (cu * cq) (cu * rI)); [reflexivity|ring|]. apply (dvd_mul2 A HA); [apply (dvd_refl A HA)|exact Uq]. }
  exists w. split; [exact Hw|]. apply (Bcancel p (w * q) s); auto with gd. transitivity (s * p); [ring|]. rewrite E, Ew. ring.
Qed.

Lemma prim_of_dvd p q : prim p -> dvd B q p -> prim q.
Proof. intros H Dq d Hd Dd. apply H; [exact Hd|]. apply (BT d q); assumption. Qed.

(** Pseudo-division. *)
Lemma pseudo n : forall p m q1 b, D n p -> D m q1 -> A b -> ~ b == rO ->
  exists s q r, A s /\ ~ s == rO /\ B q /\ D m r /\ s * p == q * (q1 + b * pw m) + r.
Proof.
  induction n; intros p m q1 b Hp Hq Hb Nb.
  - assert (~ rI == rO) as N1 by (intros E; apply Nb; transitivity (b * rI); [ring|rewrite E; ring]).
    exists rI, rO, p. split; [auto with gd|]. split; [exact N1|]. split; [auto with gd|]. split; [apply (D_le 0); [lia|exact Hp]|ring].
  - destruct (le_lt_dec (S n) m) as [L|L].
    { assert (~ rI == rO) as N1 by (intros E; apply Nb; transitivity (b * rI); [ring|rewrite E; ring]).
      exists rI, rO, p. split; [auto with gd|]. split; [exact N1|]. split; [auto with gd|]. split; [apply (D_le (S n)); assumption|ring]. }
    destruct Hp as [p1 [a [H1 [Ha E]]]].
    destruct (IHn (b * p1 + - (a * pw (n - m) * q1)) m q1 b) as [s [q [r [Hs [Ns [Bq [Dr Er]]]]]]]; auto.
    { apply D_add; [apply D_scale; assumption|]. apply D_opp. replace n with (m + (n - m))%nat at 1 by lia.
      apply (D_proper _ (a * q1 * pw (n - m))); [ring|]. apply D_pw, D_scale; assumption. }
    exists (s * b), (q + s * a * pw (n - m)), r. split; [auto with gd|]. split; [intros Z0; destruct (gd_integral A HA s b Hs Hb Z0); contradiction|].
    split; [auto 7 with gd|]. split; [exact Dr|].
    assert (EP : pw n == pw (n - m) * pw m) by (rewrite <- pw_add; replace (n - m + m)%nat with n by lia; reflexivity).
    transitivity (s * (b * p1 + - (a * pw (n - m) * q1)) + s * a * pw (n - m) * (q1 + b * pw m)); [rewrite E, EP; ring|].
    rewrite Er. ring.
Qed.

Lemma gcd_prim m : forall p q, B p -> prim p -> D m q -> ~ q == rO -> prim q -> exists g, isgcd B p q g.
Proof.
  induction m as [m IH] using (well_founded_induction lt_wf). intros p q Hp Pp Hq Nq Pq.
  assert (Bq : B q) by (exists m; exact Hq).
  destruct (lead m q Hq Nq) as [j [q1 [b [Lj [H1 [Hb [Nb Eq]]]]]]].
  destruct Hp as [n Hp]. destruct (pseudo n p j q1 b Hp H1 Hb Nb) as [s [u [r [Hs [Ns [Hu [Dr Er]]]]]]].
  assert (Bp : B p) by (exists n; exact Hp).
  rewrite <- Eq in Er.
  destruct (dec0 r) as [Zr|Nr].
  - exists q. assert (dvd B q p) as DQ.
    { apply (prim_dvd s); auto. exists u. split; [exact Hu|]. rewrite Er, Zr. ring. }
    split; [exact Bq|]. split; [exact DQ|]. split; [apply BR|]. auto.
  - assert (Br : B r) by (exists j; exact Dr).
    destruct (pp_exists r Br Nr) as [c [r' [HC [Br' [Pr [E Nc]]]]]]. assert (Hc : A c) by apply HC.
    assert (Nr' : ~ r' == rO) by (intros Z0; apply Nr; rewrite E, Z0; ring).
    assert (exists g, isgcd B q r' g) as [g [Hg [G1 [G2 U]]]].
    { destruct j as [|j]; [cbn in Dr; contradiction|].
      assert (D (S j) r') as Dr'.
      { destruct Dr as [r1 [a [Hr1 [Ha Ea]]]]. destruct (dvd_top c j r1 a Hc Nc Hr1 Ha) as [[a' [Ha' Ea']] [r1' [Hr1' Er1']]].
        - exists r'. split; [exact Br'|]. rewrite <- Ea, E. ring.
        - exists r1', a'. split; [exact Hr1'|]. split; [exact Ha'|]. apply (Bcancel _ _ c); auto with gd; [apply B_add; [exists j; exact Hr1'|auto with gd]|].
          transitivity r; [rewrite E; ring|]. rewrite Ea, Er1', Ea'. ring. }
      apply (IH (S j) Lj q r' Bq Pq Dr' Nr' Pr). }
    exists g. assert (Pg : prim g) by (apply (prim_of_dvd q); assumption).
    split; [exact Hg|]. split; [|split; [exact G1|]].
    + apply (prim_dvd s); auto. apply (BP g g (u * q + c * r')); [reflexivity|rewrite Er, E; ring|].
      apply BADD; apply BML; auto with gd.
    + intros d Hd D1 D2. apply U; auto. assert (prim d) as Pd by (apply (prim_of_dvd q); assumption).
      apply (prim_dvd c); auto. apply (BP d d (s * p + - (u * q))); [reflexivity|rewrite Er, E; ring|].
      apply BADD; [|apply BOPP]; apply BML; auto with gd.
Qed.

Theorem gdom_step : gdom B.
Proof.
  split; auto with gd.
  - exact B_proper.
  - exact B_integral.
  - intros p q Hp Hq. destruct (dec0 p) as [Zp|Np].
    { exists q. split; [exact Hq|]. split; [apply (BP q q rO); [reflexivity|symmetry; exact Zp|apply B0]|]. split; [apply BR|]. auto. }
    destruct (dec0 q) as [Zq|Nq].
    { exists p. split; [exact Hp|]. split; [apply BR|]. split; [apply (BP p p rO); [reflexivity|symmetry; exact Zq|apply B0]|]. auto. }
    destruct (pp_exists p Hp Np) as [c1 [p' [HC1 [Bp [P1 [E1 N1]]]]]].
    destruct (pp_exists q Hq Nq) as [c2 [q' [HC2 [Bq [P2 [E2 N2]]]]]].
    assert (Hc1 : A c1) by apply HC1. assert (Hc2 : A c2) by apply HC2.
    assert (Nq' : ~ q' == rO) by (intros Z0; apply Nq; rewrite E2, Z0; ring).
    destruct Bq as [m Hq']. assert (Bq : B q') by (exists m; exact Hq').
    destruct (gcd_prim m p' q' Bp P1 Hq' Nq' P2) as [g [Hg [G1 [G2 U]]]].
    destruct (gd_gcd A HA c1 c2 Hc1 Hc2) as [k [Hk [K1 [K2 UK]]]].
    exists (k * g). split; [auto with gd|].
    split; [apply (BP (k * g) (k * g) (c1 * p')); [reflexivity|symmetry; exact E1|]; apply BM2; [apply dvd_AB, K1|exact G1]|].
    split; [apply (BP (k * g) (k * g) (c2 * q')); [reflexivity|symmetry; exact E2|]; apply BM2; [apply dvd_AB, K2|exact G2]|].
    intros d Hd D1 D2. destruct (dec0 d) as [Zd|Nd].
    { exfalso. apply Np, (dvd_0_inv B). apply (BP d rO p p Zd (reflexivity _) D1). }
    destruct (pp_exists d Hd Nd) as [c [d' [HC [Bd [Pd [Ed Nc]]]]]]. assert (Hc : A c) by apply HC.
    assert (CD : dvd B c d) by apply HC. assert (DD : dvd B d' d) by (exists c; split; [auto with gd|exact Ed]).
    apply (BP (c * d') d (k * g) (k * g)); [symmetry; exact Ed|reflexivity|]. apply BM2.
    + apply dvd_AB. apply UK; [exact Hc| |]; [apply HC1|apply HC2]; auto; apply (BT c d); assumption.
    + apply U; [exact Bd| |]; [apply (prim_dvd c1)|apply (prim_dvd c2)]; auto;
        [apply (BP d' d' p); [reflexivity|exact E1|]|apply (BP d' d' q); [reflexivity|exact E2|]]; apply (BT d' d); assumption.
Qed.
End Step.
End Dom.
