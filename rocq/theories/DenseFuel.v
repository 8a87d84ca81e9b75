(** * More fuel does not change the results of the dense gcd. *)
From Verif Require Import Prelude Zp Dense.
Local Open Scope Z_scope.
Section DF.
Variable p : Z.
Ltac stp H := match type of H with obind ?o _ = Ok _ => let E := fresh "E" in destruct o eqn:E; try discriminate; cbn [obind] in H |- * end.
Lemma euclid_mono : forall n m A B g, (n <= m)%nat -> gcd_euclid p n A B = Ok g -> gcd_euclid p m A B = Ok g.
Proof.
  induction n as [|n IH]; intros m A B g L H; [discriminate|]. destruct m as [|m]; [lia|]. cbn [gcd_euclid] in *. destruct B as [|b B]; [exact H|].
  stp H. destruct a as [Q R]. apply (IH m); [lia|exact H].
Qed.
Lemma iter_mono : forall n m h M A B s r, (n <= m)%nat -> hgcd_iter_loop p n h M A B s = Ok r -> hgcd_iter_loop p m h M A B s = Ok r.
Proof.
  induction n as [|n IH]; intros m h M A B s r L H; [discriminate|]. destruct m as [|m]; [lia|]. cbn [hgcd_iter_loop] in *. destruct (Nat.leb (h + 1) (length B)); [|exact H].
  stp H. destruct a as [Q T], M as [[[M0 M1] M2] M3]. destruct (row_update p M2 M3 Q), (row_update p M0 M1 Q). apply (IH m); [lia|exact H].
Qed.
Lemma rec_mono : forall n m a b r, (n <= m)%nat -> hgcd_rec p n a b = Ok r -> hgcd_rec p m a b = Ok r.
Proof.
  induction n as [|n IH]; intros m a b r L H; [discriminate|]. destruct m as [|m]; [lia|].
  assert (Sub : forall x y r, (if Nat.ltb (length x) hgcd_cutoff then hgcd_iter p n x y else hgcd_rec p n x y) = Ok r -> (if Nat.ltb (length x) hgcd_cutoff then hgcd_iter p m x y else hgcd_rec p m x y) = Ok r).
  { intros x y r' Hr. destruct (Nat.ltb (length x) hgcd_cutoff); [unfold hgcd_iter in *; apply (iter_mono n); [lia|exact Hr]|apply IH; [lia|exact Hr]]. }
  cbn [hgcd_rec] in *. destruct (Nat.ltb (length b) (Nat.div (length a) 2 + 1)); [exact H|].
  stp H. rewrite (Sub _ _ _ E). cbn [obind] in *. destruct a0 as [[[R a3] b3] s]. destruct (rebuild p _ R s _ _ a3 b3) as [a2 b2].
  destruct (Nat.ltb (length b2) (Nat.div (length a) 2 + 1)); [exact H|]. stp H. destruct a0 as [q d]. stp H. rewrite (Sub _ _ _ E1). cbn [obind] in *. exact H.
Qed.
Lemma main_mono : forall n m G J g, (n <= m)%nat -> hgcd_main p n G J = Ok g -> hgcd_main p m G J = Ok g.
Proof.
  induction n as [|n IH]; intros m G J g L H; [discriminate|]. destruct m as [|m]; [lia|]. cbn [hgcd_main] in *. destruct J as [|j J]; [exact H|].
  stp H. destruct a as [Q R]. destruct R as [|r R]; [exact H|]. destruct (Nat.ltb (length (j :: J)) gcd_cutoff); [apply (euclid_mono n); [lia|exact H]|].
  stp H. rewrite (rec_mono n m _ _ _ ltac:(lia) E0). cbn [obind]. destruct a as [[[M G'] J'] s]. apply (IH m); [lia|exact H].
Qed.
Lemma d_gcd_mono n m A B g : (n <= m)%nat -> d_gcd p n A B = Ok g -> d_gcd p m A B = Ok g.
Proof.
  intros L H. unfold d_gcd in *. destruct (if Nat.ltb (length A) (length B) then (B, A) else (A, B)) as [a b]. destruct b as [|b0 b]; [exact H|].
  destruct (Nat.ltb (length (b0 :: b)) gcd_cutoff); [apply (euclid_mono n); auto|]. unfold gcd_hgcd in *. stp H. destruct a0 as [Q R]. destruct R as [|r R]; [exact H|].
  stp H. rewrite (rec_mono n m _ _ _ L E0). cbn [obind]. destruct a0 as [[[M G'] J'] s]. apply (main_mono n); auto.
Qed.
End DF.
