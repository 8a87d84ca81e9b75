(** * The specification polynomials form a commutative ring (modulo [req]). *)
From Coq Require Import Ring Ring_theory Setoid Morphisms Permutation.
From Verif Require Import Prelude Coef Spec.
Local Open Scope N_scope.

(** ** Monomials *)
Lemma exp_app m1 m2 v : exp (m1 ++ m2) v = exp m1 v + exp m2 v.
Proof. induction m1 as [|[w e] m1 IH]; simpl; [reflexivity|]. rewrite IH. lia. Qed.

Lemma exp_notin m v : ~ In v (map fst m) -> exp m v = 0.
Proof.
  induction m as [|[w e] m IH]; simpl; intros H; [reflexivity|].
  destruct (N.eqb_spec w v) as [->|]; [exfalso; tauto|]. rewrite IH; tauto.
Qed.

Lemma meqb_spec m1 m2 : reflect (meq m1 m2) (meqb m1 m2).
Proof.
  apply iff_reflect. unfold meqb, meq. rewrite forallb_forall. split.
  - intros H v _. apply N.eqb_eq, H.
  - intros H v.
    destruct (in_dec N.eq_dec v (map fst m1 ++ map fst m2)) as [i|n].
    + apply N.eqb_eq, H, i.
    + rewrite !exp_notin; [reflexivity| |]; intros i; apply n, in_or_app; tauto.
Qed.

#[global] Instance meq_equiv : Equivalence meq.
Proof. split; red; unfold meq; intros; congruence. Qed.
#[global] Instance app_meq : Proper (meq ==> meq ==> meq) (@app (var * N)).
Proof. intros a a' Ha b b' Hb v. rewrite !exp_app, Ha, Hb. reflexivity. Qed.
#[global] Instance meqb_proper : Proper (meq ==> meq ==> eq) meqb.
Proof.
  intros a a' Ha b b' Hb.
  destruct (meqb_spec a b) as [H|H], (meqb_spec a' b') as [H'|H']; try reflexivity;
    exfalso; [apply H'|apply H]; intro v; specialize (Ha v); specialize (Hb v).
  - specialize (H v). congruence.
  - specialize (H' v). congruence.
Qed.
Lemma meq_app_comm m1 m2 : meq (m1 ++ m2) (m2 ++ m1).
Proof. intro v. rewrite !exp_app. lia. Qed.
Lemma meqb_refl m : meqb m m = true.
Proof. destruct (meqb_spec m m) as [|n]; [reflexivity|exfalso; apply n; reflexivity]. Qed.
Lemma meqb_sym m1 m2 : meqb m1 m2 = meqb m2 m1.
Proof.
  destruct (meqb_spec m1 m2) as [H|H], (meqb_spec m2 m1) as [H'|H']; try reflexivity;
    exfalso; [apply H'|apply H]; symmetry; assumption.
Qed.
Lemma meq_Permutation m1 m2 : Permutation m1 m2 -> meq m1 m2.
Proof.
  induction 1 as [|[w e] m1 m2 _ IH|[w e] [w' e'] m|m1 m2 m3 _ IH1 _ IH2]; intro v; simpl.
  - reflexivity.
  - rewrite (IH v). reflexivity.
  - lia.
  - rewrite (IH1 v). apply IH2.
Qed.

Section Ring.
Context {C : Type} (K : coefs C) (HK : ring_ok K).
Add Ring Kring : (ring_laws K HK).
Notation "0c" := (c0 K). Notation "1c" := (c1 K).
Infix "+c" := (cadd K) (at level 50, left associativity).
Infix "*c" := (cmul K) (at level 40, left associativity).
Notation coef := (coef K). Notation req := (req K).

(** ** Linear functionals *)
Fixpoint rsum (f : smono -> C) (p : rpoly C) : C :=
  match p with
  | [] => 0c
  | (m, c) :: p' => (c *c f m) +c rsum f p'
  end.

Definition delta (m m' : smono) : C := if meqb m' m then 1c else 0c.

Lemma coef_rsum p m : coef p m = rsum (delta m) p.
Proof.
  induction p as [|[m' c] p IH]; simpl; [reflexivity|].
  rewrite IH. change (delta m m') with (if meqb m' m then 1c else 0c). destruct (meqb m' m); ring.
Qed.

Lemma rsum_app f p q : rsum f (p ++ q) = rsum f p +c rsum f q.
Proof. induction p as [|[m c] p IH]; simpl; [ring|]. rewrite IH. ring. Qed.

Lemma rsum_ext f g p : (forall m c, In (m, c) p -> f m = g m) -> rsum f p = rsum g p.
Proof.
  induction p as [|[m c] p IH]; simpl; intros H; [reflexivity|].
  rewrite (H m c) by tauto. rewrite IH; [reflexivity|]. intros; eapply H; right; eassumption.
Qed.

Lemma rsum_plus f g p : rsum (fun m => f m +c g m) p = rsum f p +c rsum g p.
Proof. induction p as [|[m c] p IH]; simpl; [ring|]. rewrite IH. ring. Qed.

Lemma rsum_scal a f p : rsum (fun m => a *c f m) p = a *c rsum f p.
Proof. induction p as [|[m c] p IH]; simpl; [ring|]. rewrite IH. ring. Qed.

Lemma rsum_0 p : rsum (fun _ => 0c) p = 0c.
Proof. induction p as [|[m c] p IH]; simpl; [ring|]. rewrite IH. ring. Qed.

Lemma rsum_swap f p q :
  rsum (fun m => rsum (fun m' => f m m') q) p = rsum (fun m' => rsum (fun m => f m m') p) q.
Proof.
  induction p as [|[m c] p IH]; simpl.
  - rewrite rsum_0. reflexivity.
  - rewrite IH, rsum_plus, rsum_scal. reflexivity.
Qed.

Lemma rsum_Permutation f p q : Permutation p q -> rsum f p = rsum f q.
Proof.
  induction 1 as [|[m c] p q _ IH|[m c] [m' c'] p|p q r _ IH1 _ IH2]; simpl.
  - reflexivity.
  - rewrite IH; reflexivity.
  - ring.
  - congruence.
Qed.

Lemma rsum_opp f p : rsum f (ropp K p) = copp K (rsum f p).
Proof. induction p as [|[m c] p IH]; simpl; [ring|]. rewrite IH. ring. Qed.

Lemma rsum_rmul f p q :
  rsum f (rmul K p q) = rsum (fun m => rsum (fun m' => f (m ++ m')) q) p.
Proof.
  induction p as [|[m c] p IH]; simpl; [reflexivity|].
  unfold rmul in *. rewrite rsum_app, IH. f_equal. clear IH.
  induction q as [|[m' c'] q IH]; simpl; [ring|]. rewrite IH. ring.
Qed.

(** ** The key lemma: functionals that respect [meq] respect [req] *)
Lemma partition_rsum f (P : smono * C -> bool) p :
  rsum f p = rsum f (filter P p) +c rsum f (filter (fun t => negb (P t)) p).
Proof.
  induction p as [|[m c] p IH]; simpl; [ring|].
  destruct (P (m, c)); simpl; rewrite IH; ring.
Qed.

Lemma rsum_zero f (Hf : Proper (meq ==> eq) f) p :
  (forall m, coef p m = 0c) -> rsum f p = 0c.
Proof.
  remember (length p) as n eqn:Hn. revert p Hn.
  induction n as [n IH] using (well_founded_induction lt_wf); intros p -> H.
  destruct p as [|[m c] p'] eqn:Hp; [reflexivity|]. rewrite <- Hp in *.
  rewrite (partition_rsum f (fun t => meqb (fst t) m)).
  set (P := fun t : smono * C => meqb (fst t) m).
  assert (E1 : rsum f (filter P p) = coef p m *c f m).
  { rewrite coef_rsum. clear -Hf HK.
    induction p as [|[m' c'] p IH]; simpl; [ring|].
    unfold P at 1. simpl. unfold delta at 1.
    destruct (meqb_spec m' m) as [e|e]; simpl; rewrite IH; [|ring].
    rewrite e. ring. }
  rewrite E1, H.
  assert (E2 : rsum f (filter (fun t => negb (P t)) p) = 0c).
  { eapply IH; [|reflexivity|].
    - rewrite Hp. simpl. unfold P at 1. simpl. rewrite meqb_refl. simpl.
      clear. induction p' as [|t p IH]; simpl in *; [lia|].
      destruct (negb (P t)); simpl in *; lia.
    - intro m0. specialize (H m0). revert H. rewrite !coef_rsum.
      rewrite (partition_rsum _ P p).
      destruct (meqb_spec m m0) as [e|e].
      + intros _. rewrite <- (rsum_0 p). clear -e HK.
        induction p as [|[m' c'] p IH]; simpl; [reflexivity|].
        unfold P at 1. simpl. destruct (meqb m' m) eqn:E; simpl; rewrite IH; try ring.
        unfold delta. destruct (meqb_spec m' m0) as [e'|e']; [|ring].
        exfalso. rewrite <- e in e'. destruct (meqb_spec m' m); [discriminate|tauto].
      + intros H0. transitivity (rsum (delta m0) (filter P p) +c
                                 rsum (delta m0) (filter (fun t => negb (P t)) p)).
        2: exact H0.
        assert (Z : rsum (delta m0) (filter P p) = 0c).
        { clear -e HK. induction p as [|[m' c'] p IH]; simpl; [reflexivity|].
          unfold P at 1. simpl. destruct (meqb_spec m' m) as [e'|e']; simpl; rewrite ?IH; try ring.
          unfold delta. destruct (meqb_spec m' m0) as [e2|e2]; [|ring].
          exfalso. apply e. rewrite <- e', <- e2. reflexivity. }
        rewrite Z. ring. }
  transitivity (0c *c f m +c rsum f (filter (fun t => negb (P t)) p)); [reflexivity|].
  rewrite E2. ring.
Qed.

Lemma coef_app p q m : coef (p ++ q) m = coef p m +c coef q m.
Proof. rewrite !coef_rsum. apply rsum_app. Qed.
Lemma coef_opp p m : coef (ropp K p) m = copp K (coef p m).
Proof. rewrite !coef_rsum. apply rsum_opp. Qed.
Lemma coef_rmul p q m :
  coef (rmul K p q) m = rsum (fun m1 => rsum (fun m2 => delta m (m1 ++ m2)) q) p.
Proof. rewrite coef_rsum. apply rsum_rmul. Qed.

Lemma rsum_req f (Hf : Proper (meq ==> eq) f) p q : req p q -> rsum f p = rsum f q.
Proof.
  intros H.
  assert (Z : rsum f (p ++ ropp K q) = 0c).
  { apply rsum_zero; [assumption|]. intro m. rewrite coef_app, coef_opp, (H m). ring. }
  rewrite rsum_app, rsum_opp in Z.
  transitivity (rsum f p +c copp K (rsum f q) +c rsum f q); [ring|]. rewrite Z. ring.
Qed.

#[global] Instance delta_proper m : Proper (meq ==> eq) (delta m).
Proof. intros a a' Ha. unfold delta. rewrite Ha. reflexivity. Qed.
#[global] Instance coef_proper p : Proper (meq ==> eq) (coef p).
Proof.
  intros a a' Ha. rewrite !coef_rsum. apply rsum_ext. intros m c _. unfold delta.
  rewrite Ha. reflexivity.
Qed.

#[global] Instance req_equiv : Equivalence req.
Proof. split; red; unfold Spec.req; intros; congruence. Qed.
#[global] Instance radd_proper : Proper (req ==> req ==> req) (@radd C).
Proof. intros p p' Hp q q' Hq m. unfold radd. rewrite !coef_app, (Hp m), (Hq m). reflexivity. Qed.
#[global] Instance app_req_proper : Proper (req ==> req ==> req) (@app (smono * C)).
Proof. exact radd_proper. Qed.
#[global] Instance ropp_proper : Proper (req ==> req) (ropp K).
Proof. intros p p' Hp m. rewrite !coef_opp, (Hp m). reflexivity. Qed.
#[global] Instance rsub_proper : Proper (req ==> req ==> req) (rsub K).
Proof. intros p p' Hp q q' Hq. unfold rsub. rewrite Hp, Hq. reflexivity. Qed.
#[global] Instance rmul_proper : Proper (req ==> req ==> req) (rmul K).
Proof.
  intros p p' Hp q q' Hq m. rewrite !coef_rmul.
  transitivity (rsum (fun m1 => rsum (fun m2 => delta m (m1 ++ m2)) q) p').
  - apply rsum_req; [|assumption].
    intros a a' Ha. apply rsum_ext. intros m' c' _. apply delta_proper. rewrite Ha. reflexivity.
  - apply rsum_ext. intros m1 c _. apply rsum_req; [|assumption].
    intros a a' Ha. apply delta_proper. rewrite Ha. reflexivity.
Qed.
#[global] Instance coef_req_proper : Proper (req ==> meq ==> eq) coef.
Proof. intros p p' Hp m m' Hm. rewrite Hm. apply Hp. Qed.

Lemma rmul_comm p q : req (rmul K p q) (rmul K q p).
Proof.
  intro m. rewrite !coef_rmul, rsum_swap. apply rsum_ext. intros m1 c _. apply rsum_ext.
  intros m2 c' _. apply delta_proper, meq_app_comm.
Qed.
Lemma rmul_assoc p q r : req (rmul K p (rmul K q r)) (rmul K (rmul K p q) r).
Proof.
  intro m. rewrite !coef_rsum, !rsum_rmul. apply rsum_ext. intros m1 c1 _.
  rewrite rsum_rmul. apply rsum_ext. intros m2 c2 _. apply rsum_ext. intros m3 c3 _.
  rewrite app_assoc. reflexivity.
Qed.
Lemma rmul_1_l p : req (rmul K (r1 K) p) p.
Proof. intro m. rewrite !coef_rsum, rsum_rmul. simpl. change (fun m' => delta m m') with (delta m). ring. Qed.
Lemma rmul_add_l p q r : req (rmul K (radd p q) r) (radd (rmul K p r) (rmul K q r)).
Proof. intro m. unfold radd. rewrite coef_app, !coef_rmul, rsum_app. reflexivity. Qed.

Lemma rring : ring_theory (@r0 C) (r1 K) (@radd C) (rmul K) (rsub K) (ropp K) req.
Proof.
  split.
  - intros x m. reflexivity.
  - intros x y m. unfold radd. rewrite !coef_app. ring.
  - intros x y z m. unfold radd. rewrite !coef_app. ring.
  - apply rmul_1_l.
  - apply rmul_comm.
  - apply rmul_assoc.
  - apply rmul_add_l.
  - intros x y. reflexivity.
  - intros x m. unfold radd. rewrite coef_app, coef_opp. simpl. ring.
Qed.
Lemma rring_ext : ring_eq_ext (@radd C) (rmul K) (ropp K) req.
Proof. split; [exact radd_proper | exact rmul_proper | exact ropp_proper]. Qed.

Lemma coef_cons m' c p m :
  coef ((m', c) :: p) m = (if meqb m' m then c else 0c) +c coef p m.
Proof. simpl. destruct (meqb m' m); ring. Qed.

Lemma req_cons_0 m p : req ((m, 0c) :: p) p.
Proof. intro m'. simpl. destruct (meqb m m'); [ring|reflexivity]. Qed.

Lemma req_Permutation p q : Permutation p q -> req p q.
Proof. intros H m. rewrite !coef_rsum. apply rsum_Permutation, H. Qed.

(** Evaluation *)
Lemma cpow_add a n m : cpow K a (n + m) = cpow K a n *c cpow K a m.
Proof. induction n as [|n IH]; simpl; [ring|]. rewrite IH. ring. Qed.

Lemma meval_app rho m1 m2 : meval K rho (m1 ++ m2) = meval K rho m1 *c meval K rho m2.
Proof. induction m1 as [|[v e] m1 IH]; simpl; [ring|]. rewrite IH. ring. Qed.

(** [meval] only depends on the exponents: take out one variable at a time. *)
Lemma meval_split rho v m :
  meval K rho m = cpow K (rho v) (N.to_nat (exp m v)) *c
                  meval K rho (filter (fun t => negb (N.eqb (fst t) v)) m).
Proof.
  induction m as [|[w e] m IH]; simpl; [ring|].
  rewrite IH. destruct (N.eqb_spec w v) as [->|]; simpl.
  - rewrite N2Nat.inj_add, cpow_add. ring.
  - ring.
Qed.
Lemma exp_filter v m w :
  exp (filter (fun t => negb (N.eqb (fst t) v)) m) w = if N.eqb w v then 0 else exp m w.
Proof.
  induction m as [|[u e] m IH]; simpl; [destruct (N.eqb w v); reflexivity|].
  destruct (N.eqb_spec u v) as [E|E]; simpl; rewrite IH;
    destruct (N.eqb_spec w v) as [E'|E']; destruct (N.eqb_spec u w) as [E2|E2];
    try reflexivity; try lia; congruence.
Qed.
Lemma meval_1 rho m : (forall v, exp m v = 0) -> meval K rho m = 1c.
Proof.
  induction m as [|[v e] m IH]; simpl; intros H; [reflexivity|].
  assert (e = 0) as ->. { specialize (H v). rewrite N.eqb_refl in H. lia. }
  simpl. rewrite IH; [ring|]. intros w. specialize (H w). destruct (N.eqb v w); lia.
Qed.
#[global] Instance meval_proper rho : Proper (meq ==> eq) (meval K rho).
Proof.
  intros m1. remember (length m1) as n eqn:Hn. revert m1 Hn.
  induction n as [n IH] using (well_founded_induction lt_wf); intros m1 -> m2 H.
  destruct m1 as [|[v e] m1'] eqn:E.
  - simpl. symmetry. apply meval_1. intros w. rewrite <- (H w). reflexivity.
  - rewrite <- E in *. rewrite (meval_split rho v m1), (meval_split rho v m2), (H v). f_equal.
    eapply IH; [|reflexivity|].
    + rewrite E. simpl. rewrite N.eqb_refl. simpl.
      clear. induction m1' as [|t l IH]; simpl; [lia|]. destruct (negb _); simpl; lia.
    + intro w. rewrite !exp_filter. destruct (N.eqb w v); [reflexivity|apply H].
Qed.

Lemma reval_rsum rho p : reval K rho p = rsum (meval K rho) p.
Proof. induction p as [|[m c] p IH]; simpl; [reflexivity|]. rewrite IH. reflexivity. Qed.
#[global] Instance reval_proper rho : Proper (req ==> eq) (reval K rho).
Proof. intros p q H. rewrite !reval_rsum. apply rsum_req; [apply meval_proper|exact H]. Qed.
Lemma reval_add rho p q : reval K rho (radd p q) = reval K rho p +c reval K rho q.
Proof. rewrite !reval_rsum. apply rsum_app. Qed.
Lemma reval_mul rho p q : reval K rho (rmul K p q) = reval K rho p *c reval K rho q.
Proof.
  rewrite !reval_rsum, rsum_rmul.
  transitivity (rsum (fun m => rsum (meval K rho) q *c meval K rho m) p).
  - apply rsum_ext. intros m c _.
    transitivity (rsum (fun m' => meval K rho m *c meval K rho m') q).
    + apply rsum_ext. intros. apply meval_app.
    + rewrite rsum_scal. ring.
  - rewrite rsum_scal. ring.
Qed.
End Ring.
