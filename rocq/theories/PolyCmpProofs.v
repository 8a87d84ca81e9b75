(** * operator> on polynomials is a strict total order. *)
From Coq Require Import Sorting.Sorted.
From Verif Require Import Prelude Coef OrderSpec PairVec PairVecProofs.
Section Cmp.
Context {A B : Type} (ok : A -> Prop) (gt eqA : A -> A -> bool) (K : coefs B) (gtB : B -> B -> bool).
Context (HO : order_on ok gt) (HE : forall a b, eqA a b = true <-> a = b) (HK : ring_ok K).
Context (HB : order_on (fun _ => True) gtB).
Notation cmp := (pv_comp gt eqA K gtB).
Theorem pv_comp_order : order_on (all_ok ok) cmp.
Proof.
  split.
  - intros l Hl. induction Hl as [|[a b] l Ha Hl IH]; [reflexivity|]. cbn [pv_comp fst snd].
    rewrite (eqA_refl eqA HE). cbn [negb]. destruct (ceqb_spec K HK b b) as [_|n]; [exact IH|congruence].
  - intros l1. induction l1 as [|[a e] r1 IH]; intros [|[b f] r2] [|[c g] r3] H1 H2 H3;
      cbn [pv_comp fst snd]; try discriminate; try reflexivity.
    inversion H1; inversion H2; inversion H3; subst; cbn [fst] in *.
    destruct (eqA_spec eqA HE a b) as [->|n1]; cbn [negb].
    + destruct (eqA_spec eqA HE b c) as [->|n2]; cbn [negb]; [|tauto].
      destruct (ceqb_spec K HK e f) as [->|m1]; cbn [negb].
      * destruct (ceqb_spec K HK f g) as [->|m2]; cbn [negb]; [apply IH; assumption|tauto].
      * destruct (ceqb_spec K HK f g) as [->|m2]; cbn [negb].
        -- destruct (ceqb_spec K HK e g) as [->|_]; [congruence|]. cbn [negb]. tauto.
        -- intros G1 G2. pose proof (gt_trans _ _ HB e f g I I I G1 G2) as G3.
           destruct (ceqb_spec K HK e g) as [->|_]; [|exact G3].
           rewrite (gt_irrefl _ _ HB g I) in G3. discriminate.
    + destruct (eqA_spec eqA HE b c) as [->|n2]; cbn [negb].
      * destruct (eqA_spec eqA HE a c) as [->|_]; [congruence|]. cbn [negb]. tauto.
      * intros G1 G2. pose proof (gt_trans _ _ HO a b c ltac:(assumption) ltac:(assumption) ltac:(assumption) G1 G2) as G3.
        destruct (eqA_spec eqA HE a c) as [->|_]; [|exact G3].
        rewrite (gt_irrefl _ _ HO c ltac:(assumption)) in G3. discriminate.
  - intros l1. induction l1 as [|[a e] r1 IH]; intros [|[b f] r2] H1 H2; cbn [pv_comp fst snd]; try tauto.
    inversion H1; inversion H2; subst; cbn [fst] in *.
    destruct (eqA_spec eqA HE a b) as [->|n1].
    + rewrite (eqA_refl eqA HE). cbn [negb].
      destruct (ceqb_spec K HK e f) as [->|m1].
      * destruct (ceqb_spec K HK f f) as [_|]; [|congruence]. cbn [negb].
        destruct (IH r2) as [->|G]; [assumption|assumption|tauto|tauto].
      * destruct (ceqb_spec K HK f e) as [->|_]; [congruence|]. cbn [negb].
        destruct (gt_total _ _ HB e f I I) as [->|G]; [congruence|tauto].
    + destruct (eqA_spec eqA HE b a) as [->|_]; [congruence|]. cbn [negb].
      destruct (gt_total _ _ HO a b ltac:(assumption) ltac:(assumption)) as [->|G]; [congruence|tauto].
Qed.
End Cmp.
