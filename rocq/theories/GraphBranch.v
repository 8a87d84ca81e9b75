(** * connected branches (Graph.v, [branches]). *)
From Coq Require Import Sorted Permutation Relation_Operators.
From Verif Require Import Prelude Graph GraphMcs.

Lemma nodup_app {A} (a b : list A) : NoDup a -> NoDup b -> (forall x, In x a -> ~ In x b) -> NoDup (a ++ b).
Proof.
  induction a as [|x a IH]; intros Da Db H; [exact Db|]. inversion Da; subst. cbn [app]. constructor.
  - rewrite in_app_iff. intros [X|X]; [contradiction|]. apply (H x (or_introl eq_refl) X).
  - apply IH; [assumption|assumption|]. intros y Hy. apply H. right. exact Hy.
Qed.
Section Walk.
Variable g : list (list nat).
Notation n := (length g).
Hypothesis W : wf_adj g.
Definition alive (l2 : nat -> bool) : nat := length (filter l2 (seq 0 n)).
Lemma alive_fupd l2 j : j < n -> l2 j = true -> alive l2 = S (alive (fupd l2 j false)).
Proof.
  unfold alive. intros L E. assert (H : forall a k, a <= j -> j < a + k -> length (filter l2 (seq a k)) = S (length (filter (fupd l2 j false) (seq a k)))).
  { intros a k. revert a. induction k as [|k IH]; intros a H1 H2; [lia|]. cbn [seq filter]. destruct (Nat.eq_dec a j) as [->|N].
    - rewrite E, fupd_same. cbn [length]. f_equal. f_equal. apply filter_ext_in. intros x Hx. apply in_seq in Hx. rewrite fupd_other by lia. reflexivity.
    - rewrite fupd_other by exact N. specialize (IH (S a) ltac:(lia) ltac:(lia)). destruct (l2 a); cbn [length]; lia. }
  apply H; lia.
Qed.
Definition reach1 : nat -> nat -> Prop := clos_trans_1n nat (edge g).
Lemma reach1_trans a b c : reach1 a b -> reach1 b c -> reach1 a c.
Proof. induction 1 as [a b H|a b d H H1 IH]; intros X; [eapply t1n_trans; eassumption|eapply t1n_trans; [exact H|apply IH, X]]. Qed.
Definition walked (x : nat) (l2 : nat -> bool) (c : list nat) (l2' : nat -> bool) : Prop :=
  NoDup c /\ (forall y, l2' y = true <-> l2 y = true /\ ~ In y c) /\ (forall y, In y c -> l2 y = true /\ y < n /\ reach1 x y) /\ (forall z y, In z c -> edge g z y -> l2' y = false).
Lemma alive_walked x l2 c l2' : walked x l2 c l2' -> alive l2' <= alive l2.
Proof.
  intros (_ & H & _). unfold alive. assert (X : forall l, length (filter l2' l) <= length (filter l2 l)); [|apply X].
  induction l as [|y l IH]; cbn [filter]; [lia|]. destruct (l2' y) eqn:E; [apply H in E as [-> _]; cbn [length]; lia|]. destruct (l2 y); cbn [length]; lia.
Qed.
Lemma walk_ok k : forall x l2, alive l2 < k -> exists c l2', (forall fuel b, k <= fuel -> branch_walk fuel g x (b, l2) = Ok (b ++ c, l2')) /\ walked x l2 c l2' /\ (forall y, edge g x y -> l2' y = false).
Proof.
  induction k as [|k IH]; intros x l2 Hf; [lia|].
  assert (Gen : forall l l2, (forall y, In y l -> edge g x y) -> alive l2 < S k ->
    exists c l2', (forall fuel b, k <= fuel -> fold_left (fun (s : outcome (list nat * (nat -> bool))) j => s <- s ;; let '(b, l2) := s in
                   if l2 j then branch_walk fuel g j (b ++ [j], fupd l2 j false) else Ok (b, l2)) l (Ok (b, l2)) = Ok (b ++ c, l2')) /\ walked x l2 c l2' /\ (forall y, In y l -> l2' y = false)).
  { clear l2 Hf. induction l as [|j l IHl]; intros l2 Hl Ha; cbn [fold_left].
    - exists [], l2. split; [intros; rewrite app_nil_r; reflexivity|]. split; [|intros y []]. repeat apply conj; [constructor|intuition|intros y []|intros z y []].
    - destruct (l2 j) eqn:Ej.
      + assert (Ex : edge g x j) by (apply Hl; left; reflexivity). assert (Lj : j < n) by (apply (W x), Ex).
        pose proof (alive_fupd l2 j Lj Ej) as A1. destruct (IH j (fupd l2 j false) ltac:(lia)) as (c1 & l21 & E1 & W1 & N1).
        pose proof (alive_walked _ _ _ _ W1) as A2. destruct (IHl l21 (fun y Hy => Hl y (or_intror Hy)) ltac:(lia)) as (c2 & l22 & E2 & W2 & N2).
        destruct W1 as (D1 & M1 & R1 & K1). destruct W2 as (D2 & M2 & R2 & K2).
        assert (Dead : forall y, l21 y = false -> l22 y = false). { intros y Hy. destruct (l22 y) eqn:E; [apply M2 in E as [E _]; congruence|reflexivity]. }
        assert (Nj : l21 j = false). { destruct (l21 j) eqn:E; [|reflexivity]. apply M1 in E as [E _]. rewrite fupd_same in E. discriminate. }
        exists (j :: c1 ++ c2), l22. split; [intros fuel b Hfu; cbn [obind]; rewrite ?Ej; rewrite E1, E2 by exact Hfu; rewrite <- !app_assoc; reflexivity|]. split.
        * split; [|split; [|split]].
          -- constructor.
             ++ rewrite in_app_iff. intros [H|H]; [apply R1 in H as (H & _); rewrite fupd_same in H; discriminate|]. apply R2 in H as (H & _). congruence.
             ++ apply nodup_app; [exact D1|exact D2|]. intros y H1 H2. apply R2 in H2 as (H2 & _). apply M1 in H2 as [_ H2]. contradiction.
          -- intros y. rewrite M2, M1. cbn [In]. rewrite in_app_iff. unfold fupd. destruct (Nat.eqb_spec y j) as [->|Ny]; [intuition|]. intuition congruence.
          -- intros y [<-|Hy]; [split; [exact Ej|split; [exact Lj|apply t1n_step, Ex]]|]. apply in_app_iff in Hy as [Hy|Hy].
             ++ apply R1 in Hy as (H1 & H2 & H3). split; [unfold fupd in H1; destruct (y =? j); [discriminate|exact H1]|]. split; [exact H2|]. eapply t1n_trans; eassumption.
             ++ apply R2 in Hy as (H1 & H2 & H3). split; [|auto]. apply M1 in H1 as [H1 _]. unfold fupd in H1; destruct (y =? j); [discriminate|exact H1].
          -- intros z y [<-|Hz] E; [apply Dead, N1, E|]. apply in_app_iff in Hz as [Hz|Hz]; [apply Dead, (K1 z y Hz E)|apply (K2 z y Hz E)].
        * intros y [<-|Hy]; [apply Dead, Nj|apply N2, Hy].
      + destruct (IHl l2 (fun y Hy => Hl y (or_intror Hy)) Ha) as (c & l2' & E & Wk & N). exists c, l2'. split; [intros fuel b Hfu; cbn [obind]; rewrite ?Ej; apply E, Hfu|]. split; [exact Wk|]. intros y [<-|Hy]; [|apply N, Hy].
        destruct (l2' j) eqn:E'; [apply Wk in E' as [E' _]; congruence|reflexivity]. }
  destruct (Gen (nth x g []) l2 (fun y Hy => Hy) Hf) as (c & l2' & E & Wk & N). exists c, l2'. split; [intros [|fuel] b Hfu; [lia|]; cbn [branch_walk]; apply E; lia|]. split; [exact Wk|]. exact N.
Qed.

(** ** the outer loop, for a symmetric graph *)
Hypothesis Sy : symmetric g.
Lemma reach1_sym a b : reach1 a b -> reach1 b a.
Proof. induction 1 as [a b H|a b d H H1 IH]; [apply t1n_step, Sy, H|]. eapply reach1_trans; [exact IH|apply t1n_step, Sy, H]. Qed.
(** the branches found: pairwise unreachable, each one is what is reachable from some vertex *)
Definition inv (i : nat) (bs : list (list nat)) (l2 : nat -> bool) : Prop :=
  NoDup (concat bs) /\ (forall y, l2 y = false <-> In y (concat bs)) /\ (forall y, In y (concat bs) -> y < n) /\
  (forall z y, In z (concat bs) -> edge g z y -> In y (concat bs)) /\
  (forall b, In b bs -> exists x, x < n /\ forall y, In y b <-> reach1 x y) /\
  (forall x, x < i -> (exists y, edge g x y) -> In x (concat bs)) /\
  length bs <= i.
Lemma closed_reach (P : nat -> Prop) : (forall z y, P z -> edge g z y -> P y) -> forall a b, reach1 a b -> P a -> P b.
Proof. intros H a b R. induction R as [a b E|a b c E R IH]; intros Pa; [exact (H a b Pa E)|apply IH, (H a b Pa E)]. Qed.
Definition step (s : outcome (list (list nat) * (nat -> bool))) (i : nat) (fuel : nat) : outcome (list (list nat) * (nat -> bool)) :=
  s <- s ;; let '(l1, l2) := s in if l2 i then '(b, l2') <- branch_walk fuel g i ([], l2) ;; Ok (l1 ++ [b], l2') else Ok (l1, l2).
Lemma step_ok i bs l2 : i < n -> inv i bs l2 -> exists bs' l2', (forall fuel, n < fuel -> step (Ok (bs, l2)) i fuel = Ok (bs', l2')) /\ inv (S i) bs' l2' /\
  ((forall x, x < n -> exists y, edge g x y) -> Forall (fun b => b <> []) bs -> Forall (fun b => b <> []) bs').
Proof.
  intros Li I. unfold step. cbn [obind]. destruct I as (D & M & Rg & Cl & Cm & Hi & Ln). destruct (l2 i) eqn:Ei.
  - destruct (walk_ok (S n) i l2) as (c & l2' & E & (D1 & M1 & R1 & K1) & N1).
    { assert (X : alive l2 <= n); [|lia]. unfold alive. rewrite <- (seq_length n 0) at 2. generalize (seq 0 n). clear. induction l as [|x l IH]; cbn [filter]; [lia|]. destruct (l2 x); cbn [length]; lia. }
    exists (bs ++ [c]), l2'. split; [intros fuel Hf; rewrite E by lia; reflexivity|].
    assert (Out : forall y, reach1 i y -> l2 y = true).
    { intros y R. destruct (l2 y) eqn:Ey; [reflexivity|]. apply M in Ey. apply reach1_sym in R. pose proof (closed_reach _ Cl _ _ R Ey) as X. apply M in X. congruence. }
    assert (In' : forall y, In y c <-> reach1 i y).
    { intros y. split; [intros H; apply R1, H|]. intros R. destruct (in_dec Nat.eq_dec y c) as [Hc|Ny]; [exact Hc|exfalso].
      assert (X : l2' y = true) by (apply M1; split; [apply Out, R|exact Ny]).
      assert (Y : forall a, (forall z, edge g a z -> l2' z = false) -> (reach1 i a \/ a = i) -> reach1 a y -> l2' y = false); [|rewrite (Y i N1 (or_intror eq_refl) R) in X; discriminate].
      clear R X Ny. intros a Ha Ra R. induction R as [a y E'|a d y E' R IH]; [apply Ha, E'|].
      assert (Rd : reach1 i d) by (destruct Ra as [Ra| ->]; [eapply reach1_trans; [exact Ra|apply t1n_step, E']|apply t1n_step, E']).
      apply IH; [|left; exact Rd]. intros z Hz. apply (K1 d z); [|exact Hz]. destruct (in_dec Nat.eq_dec d c) as [H|H]; [exact H|]. exfalso.
      assert (l2' d = true) by (apply M1; split; [apply Out, Rd|exact H]). rewrite (Ha d E') in H0. discriminate. }
    split.
    + unfold inv. rewrite concat_app. cbn [concat]. rewrite app_nil_r. split; [|split; [|split; [|split; [|split; [|split]]]]].
      * apply nodup_app; [exact D|exact D1|]. intros y H1 H2. apply R1 in H2 as (H2 & _). apply M in H1. congruence.
      * intros y. rewrite in_app_iff, <- M. destruct (l2' y) eqn:Ey; [apply M1 in Ey as [E1 E2]|].
        -- split; [discriminate|]. intros [H|H]; [congruence|contradiction].
        -- split; [intros _|reflexivity]. destruct (l2 y) eqn:E2; [right|left; reflexivity]. destruct (in_dec Nat.eq_dec y c) as [H|H]; [exact H|]. exfalso. assert (l2' y = true) by (apply M1; auto). congruence.
      * intros y H. apply in_app_iff in H as [H|H]; [apply Rg, H|apply R1, H].
      * intros z y H Ez. apply in_app_iff in H as [H|H]; apply in_app_iff; [left; apply (Cl z y H Ez)|right]. apply In'. apply In' in H. eapply reach1_trans; [exact H|apply t1n_step, Ez].
      * intros b H. apply in_app_iff in H as [H|[<-|[]]]; [apply Cm, H|]. exists i. split; [exact Li|exact In'].
      * intros x Hx Ex. apply in_app_iff. destruct (Nat.eq_dec x i) as [->|Nx]; [right|left; apply Hi; [lia|exact Ex]]. apply In'. destruct Ex as [y Ey]. eapply t1n_trans; [exact Ey|apply t1n_step, Sy, Ey].
      * rewrite app_length. cbn [length]. lia.
    + intros Full Hb. apply Forall_app. split; [exact Hb|]. constructor; [|constructor]. destruct (Full i Li) as [y Ey]. intros ->. apply (proj2 (In' y)). apply t1n_step, Ey.
  - exists bs, l2. split; [reflexivity|]. split; [|auto]. unfold inv. repeat apply conj; try assumption; [|lia]. intros x Hx Ex. destruct (Nat.eq_dec x i) as [->|Nx]; [apply M, Ei|apply Hi; [lia|exact Ex]].
Qed.
Theorem branches_ok : exists bs l2, (forall fuel, n < fuel -> branches fuel g = Ok bs) /\ inv n bs l2 /\ ((forall x, x < n -> exists y, edge g x y) -> Forall (fun b => b <> []) bs).
Proof.
  assert (Gen : forall k i bs l2, i + k = n -> inv i bs l2 -> exists bs' l2', (forall fuel, n < fuel -> fold_left (fun s i => step s i fuel) (seq i k) (Ok (bs, l2)) = Ok (bs', l2')) /\ inv n bs' l2' /\ ((forall x, x < n -> exists y, edge g x y) -> Forall (fun b => b <> []) bs -> Forall (fun b => b <> []) bs')).
  { induction k as [|k IH]; intros i bs l2 Hk I; cbn [seq fold_left].
    - exists bs, l2. split; [reflexivity|]. replace n with i by lia. split; [exact I|auto].
    - destruct (step_ok i bs l2 ltac:(lia) I) as (bs1 & l21 & E1 & I1 & F1).
      destruct (IH (S i) bs1 l21 ltac:(lia) I1) as (bs' & l2' & E' & I' & F'). exists bs', l2'. split; [|split; [exact I'|auto]].
      intros fuel Hf. rewrite (E1 fuel Hf). apply E', Hf. }
  destruct (Gen n 0 [] (fun _ => true) eq_refl) as (bs & l2 & E & I & F).
  { unfold inv. cbn [concat length]. repeat apply conj; [constructor|intros y; split; [discriminate|intros []]|intros y []|intros z y []|intros b []|intros; lia|lia]. }
  exists bs, l2. split; [|split; [exact I|intros H; apply F; [exact H|constructor]]]. intros fuel Hf. unfold branches. rewrite (wf_in_range g W).
  specialize (E fuel Hf). unfold step in E. rewrite E. reflexivity.
Qed.
End Walk.
