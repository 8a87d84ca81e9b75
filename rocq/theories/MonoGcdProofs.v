(** * The gcd of monomials (polynomial_gcd.hh 20-48). *)
From Verif Require Import Prelude Coef Spec SpecProofs OrderSpec PairVec PairVecProofs Mono MonoProofs Groebner.
Local Open Scope Z_scope.
Section MG.
Context (vo : vorder) (Hvo : vorder_ok vo).
Notation ex l v := (csum Zc (N.eqb v) l).
Lemma gcd_merge_cons t1 r1 t2 r2 :
  gcd_merge vo (t1 :: r1) (t2 :: r2) =
    if vo (fst t1) (fst t2) then gcd_merge vo r1 (t2 :: r2)
    else if N.eqb (fst t1) (fst t2)
         then (fst t1, Z.min (snd t1) (snd t2)) :: gcd_merge vo r1 r2
         else gcd_merge vo (t1 :: r1) r2.
Proof. reflexivity. Qed.
Lemma gcd_merge_keys (P : var -> Prop) l1 l2 :
  Forall (fun t => P (fst t)) l1 -> Forall (fun t => P (fst t)) (gcd_merge vo l1 l2).
Proof.
  revert l2; induction l1 as [|t1 r1 IH1]; intros l2 H1; [constructor|].
  induction l2 as [|t2 r2 IH2]; [constructor|].
  rewrite gcd_merge_cons. pose proof (Forall_inv H1). pose proof (Forall_inv_tail H1).
  destruct (vo _ _); [auto|]. destruct (N.eqb _ _); [constructor; auto|auto].
Qed.
Lemma gcd_merge_spec l1 l2 : dok vo l1 -> dok vo l2 ->
  dok vo (gcd_merge vo l1 l2) /\ forall v, ex (gcd_merge vo l1 l2) v = Z.min (ex l1 v) (ex l2 v).
Proof.
  assert (DN : dok vo []) by (split; constructor).
  revert l2; induction l1 as [|t1 r1 IH1]; intros l2 D1 D2.
  - split; [exact DN|]. intros v. simpl. pose proof (exp_pos_nonneg l2 v (proj2 D2)). lia.
  - induction l2 as [|t2 r2 IH2].
    + split; [exact DN|]. intros v. pose proof (exp_pos_nonneg _ v (proj2 D1)) as P.
      change (gcd_merge vo (t1 :: r1) []) with (@nil (var * Z)). change (ex [] v) with 0. lia.
    + rewrite gcd_merge_cons. pose proof D1 as D1'. pose proof D2 as D2'.
      apply (dok_cons vo) in D1 as (P1 & G1 & R1). apply (dok_cons vo) in D2 as (P2 & G2 & R2).
      destruct (vo (fst t1) (fst t2)) eqn:E.
      * destruct (IH1 _ R1 D2') as [Hd He]. split; [exact Hd|].
        assert (G : Forall (fun u => vo (fst t1) (fst u) = true) (t2 :: r2)).
        { constructor; [exact E|]. apply (Forall_vo_trans vo Hvo _ (fst t2)); [exact E|exact G2]. }
        intros v. rewrite (He v), (ex_cons t1 r1).
        destruct (N.eqb_spec v (fst t1)) as [->|n]; [|reflexivity].
        rewrite (ex_before vo Hvo _ _ G1), (ex_before vo Hvo _ _ G). lia.
      * destruct (N.eqb_spec (fst t1) (fst t2)) as [e|n].
        -- destruct (IH1 _ R1 R2) as [Hd He]. split.
           ++ apply (dok_cons vo). cbn [fst snd]. repeat split; try apply Hd; [lia|].
              apply (gcd_merge_keys (fun a => vo (fst t1) a = true)); assumption.
           ++ intros v. rewrite !ex_cons, (He v). cbn [fst snd]. rewrite <- e in *.
              destruct (N.eqb_spec v (fst t1)) as [->|n]; [|reflexivity].
              rewrite (ex_before vo Hvo _ _ G1), (ex_before vo Hvo _ _ G2). lia.
        -- assert (E' : vo (fst t2) (fst t1) = true).
           { destruct (vo_total vo Hvo (fst t1) (fst t2)) as [c|[c|c]]; congruence. }
           assert (G : Forall (fun u => vo (fst t2) (fst u) = true) (t1 :: r1)).
           { constructor; [exact E'|]. apply (Forall_vo_trans vo Hvo _ (fst t1)); [exact E'|exact G1]. }
           destruct (IH2 R2) as [Hd He]. split; [exact Hd|].
           intros v. rewrite (He v), (ex_cons t2 r2).
           destruct (N.eqb_spec v (fst t2)) as [->|n']; [|reflexivity].
           rewrite (ex_before vo Hvo _ _ G2), (ex_before vo Hvo _ _ G). lia.
Qed.
Lemma mono_gcd_spec m1 m2 : mok vo m1 -> mok vo m2 ->
  mok vo (mono_gcd vo m1 m2) /\ forall v, zexp (mono_gcd vo m1 m2) v = Z.min (zexp m1 v) (zexp m2 v).
Proof.
  intros H1 H2. unfold mono_gcd.
  destruct (gcd_merge_spec (md m1) (md m2) (mok_dok vo _ H1) (mok_dok vo _ H2)) as [Hd He].
  split; [apply (mok_re_deg vo), Hd|]. intros v. apply He.
Qed.
End MG.
