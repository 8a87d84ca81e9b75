(** * MCS-M yields a perfect elimination ordering of the filled graph: the abstract argument. *)
From Verif Require Import Prelude.

Section Via.
Variable E : nat -> nat -> Prop.
(** a walk from a to b whose inner vertices satisfy P *)
Inductive via (P : nat -> Prop) : nat -> nat -> Prop :=
| via_edge a b : E a b -> via P a b
| via_step a x b : E a x -> P x -> via P x b -> via P a b.
Lemma via_mono (P Q : nat -> Prop) a b : (forall x, P x -> Q x) -> via P a b -> via Q a b.
Proof. intros H. induction 1; [apply via_edge; assumption|eapply via_step; eauto]. Qed.
Lemma via_app P a b c : via P a b -> P b -> via P b c -> via P a c.
Proof. induction 1; intros Pb H2; [eapply via_step; eauto|eapply via_step; eauto]. Qed.
Lemma via_snoc P a x b : via P a x -> P x -> E x b -> via P a b.
Proof. intros. eapply via_app; eauto. apply via_edge; assumption. Qed.
Lemma via_sym P a b : (forall a b, E a b -> E b a) -> via P a b -> via P b a.
Proof. intros Sy. induction 1; [apply via_edge; auto|eapply via_snoc; eauto]. Qed.
(** induction on the last edge *)
Lemma via_rev_ind (P : nat -> Prop) (a : nat) (R : nat -> Prop) :
  (forall b, E a b -> R b) -> (forall x b, via P a x -> P x -> R x -> E x b -> R b) -> forall b, via P a b -> R b.
Proof.
  intros H1 H2. assert (X : forall c b, via P c b -> (c = a \/ (via P a c /\ P c /\ R c)) -> R b).
  { induction 1 as [c b Ecb|c x b Ecx Px Hv IH]; intros [->|(V & Pc & Rc)].
    - apply H1, Ecb.
    - apply (H2 c); assumption.
    - apply IH. right. split; [apply via_edge; exact Ecx|]. split; [exact Px|apply H1; exact Ecx].
    - apply IH. right. split; [apply (via_snoc P a c x); assumption|]. split; [exact Px|apply (H2 c); assumption]. }
  intros b Hb. apply (X a b Hb). left. reflexivity.
Qed.
Lemma via_tails P a z : via P a z -> via (fun x => P x /\ via P x z) a z.
Proof. induction 1; [apply via_edge; assumption|]. eapply via_step; eauto. Qed.
(** the vertex above f z that is closest to z *)
Lemma via_last (P : nat -> Prop) (f : nat -> nat) a z : via P a z ->
  via (fun x => P x /\ f x <= f z) a z \/ exists x, P x /\ f z < f x /\ via (fun x => P x /\ f x <= f z) x z.
Proof.
  induction 1 as [a z H|a x z H Px Hv IH]; [left; apply via_edge; exact H|]. destruct IH as [IH|IH]; [|right; exact IH].
  destruct (Nat.le_gt_cases (f x) (f z)) as [L|L]; [left; eapply via_step; eauto|]. right. exists x. auto.
Qed.
End Via.

Section Unch.
Variables (n : nat) (v : nat -> nat).
(** z is not chosen in the first k rounds *)
Definition unch (k z : nat) : Prop := z < n /\ forall i, i < k -> v i <> z.
Lemma unch_S k z : unch (S k) z <-> unch k z /\ v k <> z.
Proof. unfold unch. split; [intros [A B]; split; [split; [exact A|intros i Hi; apply B; lia]|apply B; lia]|]. intros [[A B] C]. split; [exact A|]. intros i Hi. destruct (Nat.eq_dec i k) as [->|]; [exact C|apply B; lia]. Qed.
Lemma unch_mono k k' z : k <= k' -> unch k' z -> unch k z.
Proof. intros L [A B]. split; [exact A|intros i Hi; apply B; lia]. Qed.

End Unch.

Section MCSM.
Variable E : nat -> nat -> Prop.
Hypothesis Esym : forall a b, E a b -> E b a.
Variable n : nat.
(** the vertex chosen in round k, and the weights before round k *)
Variables (v : nat -> nat) (w : nat -> nat -> nat) (Sb : nat -> nat -> bool).
Notation unch := (unch n v).
Notation unch_S := (unch_S n v).
Notation unch_mono := (unch_mono n v).
Definition Slow (k z : nat) : nat -> Prop := fun x => unch (S k) x /\ w k x < w k z.
Hypothesis Hv : forall k, k < n -> unch k (v k) /\ forall z, unch k z -> w k z <= w k (v k).
Hypothesis HS : forall k z, k < n -> unch (S k) z -> (Sb k z = true <-> via E (Slow k z) (v k) z).
Hypothesis Hw : forall k z, k < n -> unch (S k) z -> w (S k) z = w k z + (if Sb k z then 1 else 0).

(** (B) z in S_i: the vertices of the walk are all chosen after z *)
Lemma low_step k z x : k < n -> unch (S k) z -> Slow k z x \/ (unch k x /\ w k x < w k z) ->
  via E (fun y => unch k y /\ w k y < w k z) x z -> unch (S k) x /\ w (S k) x < w (S k) z.
Proof.
  intros Lk Uz H V.
  assert (Ux : unch (S k) x /\ w k x < w k z).
  { destruct H as [H|[U L]]; [exact H|]. split; [|exact L]. apply unch_S. split; [exact U|]. intros <-.
    apply unch_S in Uz as [Uz _]. pose proof (proj2 (Hv k Lk) z Uz). lia. }
  destruct Ux as [Ux L]. split; [exact Ux|]. rewrite (Hw k x Lk Ux), (Hw k z Lk Uz).
  destruct (Sb k x) eqn:Ex; [|destruct (Sb k z); lia].
  assert (X : Sb k z = true).
  { apply (HS k z Lk Uz). apply (HS k x Lk Ux) in Ex. apply (via_app E _ _ x); [|split; assumption|].
    - eapply via_mono; [|exact Ex]. intros y [Uy Ly]. split; [exact Uy|lia].
    - eapply via_mono; [|exact V]. intros y [Uy Ly]. split; [|exact Ly]. apply unch_S. split; [exact Uy|]. intros <-.
      apply unch_S in Uz as [Uz _]. pose proof (proj2 (Hv k Lk) z Uz). lia. }
  rewrite X. lia.
Qed.
Lemma low_walk i z j a : unch j z -> j <= n -> i < j -> via E (fun y => unch (S i) y /\ w (S i) y < w (S i) z) a z ->
  via E (fun y => unch j y /\ w j y < w j z) a z.
Proof.
  intros Uz Ln Lt V. assert (X : forall d, i + 1 + d <= j -> via E (fun y => unch (i + 1 + d) y /\ w (i + 1 + d) y < w (i + 1 + d) z) a z).
  { induction d as [|d IH]; intros Hd.
    - replace (i + 1 + 0) with (S i) by lia. exact V.
    - specialize (IH ltac:(lia)). set (k := i + 1 + d) in *. replace (i + 1 + S d) with (S k) by lia.
      eapply via_mono; [|exact (via_tails E _ _ _ IH)]. intros x [Hx Vx]. apply (low_step k z x); [lia| |auto|exact Vx].
      apply (unch_mono (S k) j); [lia|exact Uz]. }
  specialize (X (j - i - 1) ltac:(lia)). replace (i + 1 + (j - i - 1)) with j in X by lia. exact X.
Qed.
Lemma S_walk i j : i < j -> j < n -> Sb i (v j) = true -> via E (unch (S j)) (v i) (v j).
Proof.
  intros Lt Lj HSb. pose proof (proj1 (Hv j Lj)) as Uz. assert (Uz1 : unch (S i) (v j)) by (apply (unch_mono _ j); [lia|exact Uz]).
  pose proof (proj1 (HS i _ ltac:(lia) Uz1) HSb) as V.
  assert (V1 : via E (fun y => unch (S i) y /\ w (S i) y < w (S i) (v j)) (v i) (v j)).
  { eapply via_mono; [|exact V]. intros y [Uy Ly]. split; [exact Uy|]. rewrite (Hw i y ltac:(lia) Uy), (Hw i _ ltac:(lia) Uz1), HSb. destruct (Sb i y); lia. }
  eapply via_mono; [|exact (low_walk i _ j _ Uz ltac:(lia) Lt V1)]. intros y [Uy Ly]. apply unch_S. split; [exact Uy|]. intros <-. lia.
Qed.

(** (A) conversely *)
Lemma high_first k (P : nat -> Prop) z : k < n -> (forall x, P x -> unch (S k) x) -> via E P (v k) z ->
  via E (fun x => P x /\ w k x < w k z) (v k) z \/
  exists x, P x /\ via E (fun y => P y /\ w k y < w k x) (v k) x /\ w k z <= w k x /\ via E (fun y => P y /\ w k y <= w k x) x z.
Proof.
  intros Lk HP. revert z. apply via_rev_ind; [intros b Hb; left; apply via_edge; exact Hb|].
  intros y b Vy Py IH Eyb. destruct IH as [IH|(x & Px & Vx & L & Vxy)].
  - destruct (Nat.lt_ge_cases (w k y) (w k b)) as [L|L].
    + left. apply (via_snoc E _ _ y); [|split; assumption|exact Eyb]. eapply via_mono; [|exact IH]. intros u [A B]. split; [exact A|lia].
    + right. exists y. split; [exact Py|]. split; [exact IH|]. split; [exact L|]. apply via_edge; exact Eyb.
  - destruct (Nat.lt_ge_cases (w k x) (w k b)) as [L'|L'].
    + left. apply (via_snoc E _ _ y); [|split; [assumption|lia]|exact Eyb]. apply (via_app E _ _ x); [|split; [assumption|lia]|].
      * eapply via_mono; [|exact Vx]. intros u [A B]. split; [exact A|lia].
      * eapply via_mono; [|exact Vxy]. intros u [A B]. split; [exact A|lia].
    + right. exists x. split; [exact Px|]. split; [exact Vx|]. split; [exact L'|]. apply (via_snoc E _ _ y); [exact Vxy|split; assumption|exact Eyb].
Qed.
Lemma high_stays (P : nat -> Prop) k z : k < n -> (forall x, P x -> unch (S k) x) -> unch (S k) z ->
  (exists x, P x /\ w k z < w k x /\ via E (fun x => P x /\ w k x <= w k z) x z) ->
  exists x, P x /\ w (S k) z < w (S k) x /\ via E (fun x => P x /\ w (S k) x <= w (S k) z) x z.
Proof.
  intros Lk HP Uz (x & Px & Lx & Vx).
  assert (L' : w (S k) z < w (S k) x).
  { rewrite (Hw k x Lk (HP x Px)), (Hw k z Lk Uz). destruct (Sb k z) eqn:Ez; [|destruct (Sb k x); lia].
    assert (X : Sb k x = true); [|rewrite X; lia]. apply (HS k x Lk (HP x Px)). apply (HS k z Lk Uz) in Ez.
    apply (via_app E _ _ z); [|split; assumption|].
    - eapply via_mono; [|exact Ez]. intros y [A B]. split; [exact A|lia].
    - apply (via_sym E _ _ _ Esym). eapply via_mono; [|exact Vx]. intros y [A B]. split; [apply HP, A|lia]. }
  assert (V' : via E P x z) by (eapply via_mono; [|exact Vx]; intros y [A _]; exact A).
  destruct (via_last E P (w (S k)) x z V') as [V2|V2]; [|exact V2]. exists x. auto.
Qed.
Lemma walk_S i j : i < j -> j < n -> via E (unch (S j)) (v i) (v j) -> Sb i (v j) = true.
Proof.
  intros Lt Lj V. pose proof (proj1 (Hv j Lj)) as Uz. assert (Uz1 : unch (S i) (v j)) by (apply (unch_mono _ j); [lia|exact Uz]).
  assert (HP : forall k, k <= j -> forall x, unch (S j) x -> unch (S k) x) by (intros k Hk x; apply unch_mono; lia).
  destruct (Sb i (v j)) eqn:Es; [reflexivity|exfalso].
  destruct (high_first i (unch (S j)) (v j) ltac:(lia) (HP i ltac:(lia)) V) as [X|(x & Px & Vx & L & Vxz)].
  { assert (Sb i (v j) = true); [|congruence]. apply (HS i _ ltac:(lia) Uz1). eapply via_mono; [|exact X]. intros y [A B]. split; [apply (HP i ltac:(lia)), A|exact B]. }
  assert (Sx : Sb i x = true).
  { apply (HS i x ltac:(lia)); [apply (HP i ltac:(lia)), Px|]. eapply via_mono; [|exact Vx]. intros y [A B]. split; [apply (HP i ltac:(lia)), A|exact B]. }
  assert (L1 : w (S i) (v j) < w (S i) x).
  { rewrite (Hw i _ ltac:(lia) Uz1), (Hw i x ltac:(lia) (HP i ltac:(lia) x Px)), Es, Sx. lia. }
  assert (J : forall d, S i + d <= j -> exists x, unch (S j) x /\ w (S i + d) (v j) < w (S i + d) x /\ via E (fun x => unch (S j) x /\ w (S i + d) x <= w (S i + d) (v j)) x (v j)).
  { induction d as [|d IH]; intros Hd.
    - rewrite Nat.add_0_r. assert (V' : via E (unch (S j)) x (v j)) by (eapply via_mono; [|exact Vxz]; intros y [A _]; exact A).
      destruct (via_last E (unch (S j)) (w (S i)) x (v j) V') as [V2|V2]; [|exact V2]. exists x. auto.
    - replace (S i + S d) with (S (S i + d)) by lia. apply high_stays; [lia|apply HP; lia| |apply IH; lia].
      apply (unch_mono _ j); [lia|exact Uz]. }
  destruct (J (j - S i) ltac:(lia)) as (y & Uy & Ly & _). replace (S i + (j - S i)) with j in Ly by lia.
  pose proof (proj2 (Hv j Lj) y (unch_mono j (S j) y ltac:(lia) Uy)). lia.
Qed.

(** two neighbours chosen before v j are joined *)
Theorem mcsm_simplicial i1 i2 j : i1 < i2 -> i2 < j -> j < n -> Sb i1 (v j) = true -> Sb i2 (v j) = true -> Sb i1 (v i2) = true.
Proof.
  intros L1 L2 Lj S1 S2. pose proof (proj1 (Hv j Lj)) as Uj. assert (Uj2 : unch (S i2) (v j)) by (apply (unch_mono _ j); [lia|exact Uj]).
  apply walk_S; [lia|lia|]. apply (via_app E _ _ (v j)); [|exact Uj2|].
  - eapply via_mono; [|exact (S_walk i1 j ltac:(lia) Lj S1)]. intros x. apply unch_mono. lia.
  - apply (via_sym E _ _ _ Esym). eapply via_mono; [|exact (S_walk i2 j ltac:(lia) Lj S2)]. intros x. apply unch_mono. lia.
Qed.
End MCSM.
