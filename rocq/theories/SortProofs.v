(** * The executable insertion sort meets the contract assumed of std::sort (so [sort_ok] is satisfiable). *)
From Coq Require Import Sorting.Sorted Permutation.
From Verif Require Import Prelude Coef OrderSpec PairVec.

Section Sort.
Context {A B : Type} (ok : A -> Prop) (gt : A -> A -> bool) (H : order_on ok gt).
Lemma insert_perm (t : A * B) l : Permutation (t :: l) (insert_by gt t l).
Proof.
  induction l as [|u l IH]; [apply Permutation_refl|]. cbn [insert_by]. destruct (gt (fst u) (fst t)); [|apply Permutation_refl].
  eapply Permutation_trans; [apply perm_swap|]. apply perm_skip, IH.
Qed.
Lemma insert_sorted (t : A * B) l : ok (fst t) -> all_ok ok l ->
  StronglySorted (fun t u : A * B => gt (fst u) (fst t) = false) l ->
  StronglySorted (fun t u : A * B => gt (fst u) (fst t) = false) (insert_by gt t l).
Proof.
  intros Ot Al S. induction S as [|u l S IH F]; [repeat constructor|]. cbn [insert_by]. inversion Al as [|? ? Ou Al']; subst.
  destruct (gt (fst u) (fst t)) eqn:E.
  - constructor; [apply IH, Al'|]. apply (Permutation_Forall (insert_perm t l)). constructor; [|exact F].
    destruct (gt (fst t) (fst u)) eqn:E2; [|reflexivity]. rewrite <- (gt_irrefl ok gt H (fst u) Ou). symmetry.
    apply (gt_trans ok gt H _ (fst t)); assumption.
  - constructor; [constructor; assumption|]. constructor; [exact E|]. rewrite Forall_forall in F |- *. intros w Hw. specialize (F w Hw).
    unfold all_ok in Al'. rewrite Forall_forall in Al'. specialize (Al' w Hw).
    destruct (gt (fst w) (fst t)) eqn:E2; [|reflexivity].
    destruct (gt_total ok gt H (fst u) (fst t) Ou Ot) as [Q|[Q|Q]]; [congruence|congruence|].
    rewrite <- F. symmetry. apply (gt_trans ok gt H _ (fst t)); assumption.
Qed.
Theorem isort_ok : sort_ok (B := B) ok gt (isort gt).
Proof.
  intros l. induction l as [|t l IH]; intros Al; [split; [apply Permutation_refl|constructor]|].
  inversion Al as [|? ? Ot Al']; subst. destruct (IH Al') as [P S]. cbn [isort fold_right]. split.
  - eapply Permutation_trans; [apply perm_skip, P|]. apply insert_perm.
  - apply insert_sorted; [exact Ot| |exact S]. apply (Permutation_Forall P). exact Al'.
Qed.
End Sort.
