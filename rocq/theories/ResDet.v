(** * Determinants by expansion along the first column: multilinear and alternating in the rows. *)
From Coq Require Import Ring_theory Ring Setoid Morphisms Lia Arith.
From Verif Require Import Prelude Coef Spec SpecProofs SpecOps SpecOpsProofs GcdDom GcdPoly GcdMath PolyMulProofs ResSpec.

Section RD.
Context {C : Type} (K : coefs C) (HD : domain_ok K).
Let HK : ring_ok K := domain_ring K HD.
Local Existing Instance HK.
Add Ring Kring : (ring_laws K HK).
Add Ring Rring : (rring K HK) (setoid (req_equiv K) (rring_ext K HK)).
Notation R := (rpoly C).
Notation req := (req K). Notation rmul := (rmul K).
Local Infix "==" := req (at level 70).
Notation r0 := (@Spec.r0 C). Notation r1 := (Spec.r1 K).
Context (v : var).
Notation free := (vfree K v).
Notation expand := (expand K). Notation det_by := (det_by K).

(** ** Rows up to [==] *)
Notation rows_eq := (Forall2 req).
Lemma rows_refl l : rows_eq l l. Proof. induction l; constructor; [reflexivity|assumption]. Qed.
Definition proper (phi : list R -> R) : Prop := forall l l', rows_eq l l' -> phi l == phi l'.
Lemma proper_cons phi x : proper phi -> proper (fun l => phi (x :: l)).
Proof. intros P l l' E. apply P. constructor; [reflexivity|exact E]. Qed.
Lemma rows_mid pre p q post : p == q -> rows_eq (pre ++ p :: post) (pre ++ q :: post).
Proof. intros E. apply Forall2_app; [apply rows_refl|]. constructor; [exact E|apply rows_refl]. Qed.

Definition cproper (a : R -> R) : Prop := forall p q, p == q -> a p == a q.
Lemma expand_ext a (f g : list R -> R) l : (forall x, f x == g x) -> expand a f l == expand a g l.
Proof.
  revert f g. induction l as [|r l IH]; intros f g H; cbn [ResSpec.expand]; [reflexivity|].
  rewrite (IH _ (fun x => g (r :: x))) by (intros; apply H). rewrite (H l). reflexivity.
Qed.
Lemma expand_proper a phi : cproper a -> proper phi -> proper (expand a phi).
Proof.
  intros Ha P l l' E. revert phi P. induction E as [|x y l l' E1 E2 IH]; intros phi P; cbn [ResSpec.expand]; [reflexivity|].
  rewrite (IH (fun l => phi (x :: l)) (proper_cons phi x P)).
  rewrite (expand_ext a (fun l => phi (x :: l)) (fun l => phi (y :: l))) by (intros z; apply P; constructor; [exact E1|apply rows_refl]).
  rewrite (Ha _ _ E1), (P _ _ E2). reflexivity.
Qed.
Lemma expand_lin a s (f g : list R -> R) l :
  expand a (fun x => radd (rmul s (f x)) (g x)) l == radd (rmul s (expand a f l)) (expand a g l).
Proof.
  revert f g. induction l as [|r l IH]; intros f g; cbn [ResSpec.expand]; [ring|]. rewrite IH. ring.
Qed.
Lemma expand_zero a (f : list R -> R) l : (forall x, f x == r0) -> expand a f l == r0.
Proof.
  revert f. induction l as [|r l IH]; intros f H; cbn [ResSpec.expand]; [reflexivity|].
  rewrite (IH (fun x => f (r :: x))) by (intros; apply H). rewrite (H l). ring.
Qed.
Lemma expand_dead a (f : list R -> R) l : (forall x, In x l -> a x == r0) -> expand a f l == r0.
Proof.
  revert f. induction l as [|r l IH]; intros f H; cbn [ResSpec.expand]; [reflexivity|].
  rewrite IH by (intros; apply H; right; assumption). rewrite (H r (or_introl eq_refl)). ring.
Qed.

(** linear functionals and multilinear alternating functions of the rows *)
Definition lin (a : R -> R) : Prop := cproper a /\ (forall s p q, free s -> a (radd (rmul s p) q) == radd (rmul s (a p)) (a q)).
Record alternating (phi : list R -> R) : Prop := {
  al_proper : proper phi;
  al_lin : forall pre post s p q, free s -> phi (pre ++ radd (rmul s p) q :: post) == radd (rmul s (phi (pre ++ p :: post))) (phi (pre ++ q :: post));
  al_alt : forall pre post p, phi (pre ++ p :: p :: post) == r0 }.
Lemma al_cons phi x : alternating phi -> alternating (fun l => phi (x :: l)).
Proof.
  intros [P L A]. split; [apply proper_cons, P|intros; apply (L (x :: pre)); assumption|intros; apply (A (x :: pre))].
Qed.
Lemma al_expand a (phi : list R -> R) : lin a -> alternating phi -> alternating (expand a phi).
Proof.
  intros [Ha La] AL. split.
  - apply expand_proper; [exact Ha|apply AL].
  - intros pre post s p q Fs. revert phi AL. induction pre as [|x pre IH]; intros phi AL; cbn [app ResSpec.expand].
    + rewrite (expand_ext a (fun l => phi (radd (rmul s p) q :: l)) (fun l => radd (rmul s (phi (p :: l))) (phi (q :: l)))) by (intros l; apply (al_lin _ AL []); exact Fs).
      rewrite expand_lin, La by exact Fs. ring.
    + rewrite (IH _ (al_cons phi x AL)), (al_lin _ AL) by exact Fs. ring.
  - intros pre post p. revert phi AL. induction pre as [|x pre IH]; intros phi AL; cbn [app ResSpec.expand].
    + rewrite (expand_zero a (fun l => phi (p :: p :: l))) by (intros l; apply (al_alt _ AL [])). ring.
    + rewrite (IH _ (al_cons phi x AL)), (al_alt _ AL). ring.
Qed.
Lemma al_det cs : Forall lin cs -> alternating (det_by cs).
Proof.
  induction 1 as [|c cs H _ IH]; cbn [ResSpec.det_by].
  - split.
    + intros l l' E. destruct E; reflexivity.
    + intros pre post s p q _. destruct pre; cbn [app]; ring.
    + intros pre post p. destruct pre; reflexivity.
  - apply al_expand; assumption.
Qed.

(** ** Consequences of alternation *)
Section Alt.
Context (phi : list R -> R) (AL : alternating phi).
Lemma al_eq l l' : rows_eq l l' -> phi l == phi l'. Proof. apply AL. Qed.
Lemma al_mid pre p q post : p == q -> phi (pre ++ p :: post) == phi (pre ++ q :: post).
Proof. intros E. apply al_eq, rows_mid, E. Qed.
Lemma free_1 : free r1. Proof. apply (vfree_const K). Qed.
Lemma al_add pre p q post : phi (pre ++ radd p q :: post) == radd (phi (pre ++ p :: post)) (phi (pre ++ q :: post)).
Proof.
  transitivity (phi (pre ++ radd (rmul r1 p) q :: post)); [apply al_mid; ring|]. rewrite (al_lin _ AL) by apply free_1. ring.
Qed.
Lemma al_0 pre post : phi (pre ++ r0 :: post) == r0.
Proof.
  assert (E : phi (pre ++ r0 :: post) == radd (phi (pre ++ r0 :: post)) (phi (pre ++ r0 :: post))).
  { rewrite <- al_add. apply al_mid. ring. }
  set (x := phi (pre ++ r0 :: post)) in *. clearbody x. transitivity (radd (radd x x) (ropp K x)); [ring|]. rewrite <- E. ring.
Qed.
Lemma al_scale pre s p post : free s -> phi (pre ++ rmul s p :: post) == rmul s (phi (pre ++ p :: post)).
Proof.
  intros Fs. transitivity (phi (pre ++ radd (rmul s p) r0 :: post)); [apply al_mid; ring|]. rewrite (al_lin _ AL) by exact Fs. rewrite al_0. ring.
Qed.
Lemma al_swap pre p q post : phi (pre ++ p :: q :: post) == ropp K (phi (pre ++ q :: p :: post)).
Proof.
  assert (E : phi (pre ++ radd p q :: radd p q :: post) == r0) by apply (al_alt _ AL).
  rewrite al_add in E.
  replace (pre ++ p :: radd p q :: post) with ((pre ++ [p]) ++ radd p q :: post) in E by (rewrite <- app_assoc; reflexivity).
  replace (pre ++ q :: radd p q :: post) with ((pre ++ [q]) ++ radd p q :: post) in E by (rewrite <- app_assoc; reflexivity).
  rewrite !al_add in E. rewrite <- !app_assoc in E. cbn [app] in E. rewrite !(al_alt _ AL) in E.
  transitivity (radd (radd (radd r0 (phi (pre ++ p :: q :: post))) (radd (phi (pre ++ q :: p :: post)) r0)) (ropp K (phi (pre ++ q :: p :: post)))); [ring|].
  rewrite E. ring.
Qed.
Notation m1 := (ropp K r1).
Lemma al_move pre p mid post : phi (pre ++ p :: mid ++ post) == rmul (rpow K m1 (length mid)) (phi (pre ++ mid ++ p :: post)).
Proof.
  revert pre. induction mid as [|x mid IH]; intros pre; cbn [app length rpow].
  - ring.
  - rewrite al_swap.
    replace (pre ++ x :: p :: mid ++ post) with ((pre ++ [x]) ++ p :: mid ++ post) by (rewrite <- app_assoc; reflexivity).
    rewrite IH, <- app_assoc. cbn [app]. ring.
Qed.
Lemma al_dup pre p rest : In p rest -> phi (pre ++ p :: rest) == r0.
Proof.
  intros I. apply in_split in I as (mid & post & ->). rewrite al_move.
  replace (pre ++ mid ++ p :: p :: post) with ((pre ++ mid) ++ p :: p :: post) by (rewrite <- app_assoc; reflexivity).
  rewrite (al_alt _ AL). ring.
Qed.
(** q is a combination, with coefficients free of v, of the rows in [l] *)
Inductive span (l : list R) : R -> Prop :=
| span_0 : forall q, q == r0 -> span l q
| span_add : forall q s r q', In r l -> free s -> span l q' -> q == radd (rmul s r) q' -> span l q.
Lemma al_span pre q rest : span rest q -> phi (pre ++ q :: rest) == r0.
Proof.
  induction 1 as [q E|q s r q' I Fs _ IH E].
  - rewrite (al_mid pre q r0 rest E). apply al_0.
  - rewrite (al_mid pre _ _ rest E), (al_lin _ AL) by exact Fs. rewrite IH, al_dup by exact I. ring.
Qed.
Lemma al_add_span pre p q rest : span rest q -> phi (pre ++ radd q p :: rest) == phi (pre ++ p :: rest).
Proof. intros X. rewrite al_add, al_span by exact X. ring. Qed.
Lemma al_block As : forall pre Bs post, phi (pre ++ As ++ Bs ++ post) == rmul (rpow K m1 (length As * length Bs)) (phi (pre ++ Bs ++ As ++ post)).
Proof.
  induction As as [|x As IH]; intros pre Bs post; cbn [app length Nat.mul rpow].
  - ring.
  - replace (pre ++ x :: As ++ Bs ++ post) with ((pre ++ [x]) ++ As ++ Bs ++ post) by (rewrite <- app_assoc; reflexivity).
    rewrite IH. rewrite <- app_assoc. cbn [app]. rewrite (al_move pre x Bs (As ++ post)). rewrite (rpow_add K HK). ring.
Qed.
Lemma al_scale_all s As : free s -> forall pre post, phi (pre ++ map (rmul s) As ++ post) == rmul (rpow K s (length As)) (phi (pre ++ As ++ post)).
Proof.
  intros Fs. induction As as [|x As IH]; intros pre post; cbn [app map length rpow].
  - ring.
  - rewrite al_scale by exact Fs.
    replace (pre ++ x :: map (rmul s) As ++ post) with ((pre ++ [x]) ++ map (rmul s) As ++ post) by (rewrite <- app_assoc; reflexivity).
    rewrite IH, <- app_assoc. cbn [app]. ring.
Qed.
End Alt.

(** ** A functional applied to a determinant; membership in an ideal *)
Lemma lin_expand g a (phi : list R -> R) l : lin g -> (forall r, free (a r)) -> g (expand a phi l) == expand a (fun x => g (phi x)) l.
Proof.
  intros [Pg Lg] Fa. assert (G0 : g r0 == r0).
  { assert (E : g (radd (rmul r1 r0) r0) == radd (rmul r1 (g r0)) (g r0)) by (apply Lg, free_1).
    assert (E' : g r0 == radd (g r0) (g r0)) by (rewrite (Pg _ (radd (rmul r1 r0) r0)) at 1 by ring; rewrite E; ring).
    set (x := g r0) in *. clearbody x. transitivity (radd (radd x x) (ropp K x)); [ring|]. rewrite <- E'. ring. }
  revert phi. induction l as [|r l IH]; intros phi; cbn [ResSpec.expand]; [exact G0|].
  assert (Fm : free (ropp K r1)) by (apply (vfree_opp K HD), free_1).
  rewrite (Pg _ (radd (rmul (a r) (phi l)) (radd (rmul (ropp K r1) (expand a (fun x => phi (r :: x)) l)) r0))) by ring.
  rewrite (Lg (a r)) by apply Fa. rewrite (Lg (ropp K r1)) by exact Fm. rewrite G0, IH. ring.
Qed.
Lemma expand_free a (phi : list R -> R) l : (forall r, free (a r)) -> (forall x, free (phi x)) -> free (expand a phi l).
Proof.
  intros Fa. revert phi. induction l as [|r l IH]; intros phi Fp; cbn [ResSpec.expand]; [apply (vfree_0 K)|].
  apply (vfree_add K HD); [apply (vfree_mul K HD); [apply Fa|apply Fp]|]. apply (vfree_opp K HD), IH. intros x. apply Fp.
Qed.
Lemma det_free (cs : list (R -> R)) l : Forall (fun c => forall r, free (c r)) cs -> free (det_by cs l).
Proof.
  intros H. revert l. induction H as [|c cs Hc _ IH]; intros l; cbn [ResSpec.det_by].
  - destruct l; [apply free_1|apply (vfree_0 K)].
  - apply expand_free; assumption.
Qed.
Lemma lin_det g (cs : list (R -> R)) l : lin g -> Forall (fun c => forall r, free (c r)) cs -> 
  g (det_by (cs ++ [fun p => p]) l) == det_by (cs ++ [g]) l.
Proof.
  intros Lg H. revert l. induction H as [|c cs Hc _ IH]; intros l; cbn [app ResSpec.det_by].
  - assert (X : forall phi, (forall x, phi x = r1 \/ phi x = r0) -> g (expand (fun p => p) phi l) == expand g phi l).
    2: { apply X. intros [|]; auto. }
    destruct Lg as [Pg Lg]. pose proof (lin_expand g (fun _ => r1) (fun _ => r0) [] (conj Pg Lg) (fun _ => free_1)) as G0. cbn [ResSpec.expand] in G0.
    induction l as [|r l IHl]; intros phi Hp; cbn [ResSpec.expand]; [exact G0|].
    assert (Fm : free (ropp K r1)) by (apply (vfree_opp K HD), free_1).
    assert (Fp : free (phi l)) by (destruct (Hp l) as [-> | ->]; [apply free_1|apply (vfree_0 K)]).
    rewrite (Pg _ (radd (rmul (phi l) r) (radd (rmul (ropp K r1) (expand (fun p => p) (fun x => phi (r :: x)) l)) r0))) by ring.
    rewrite (Lg (phi l)) by exact Fp. rewrite (Lg (ropp K r1)) by exact Fm. rewrite G0, IHl by (intros x; apply Hp). ring.
  - rewrite (lin_expand g c _ l Lg Hc). apply expand_ext. exact IH.
Qed.

Lemma ideal_ropp gs p : ideal K gs p -> ideal K gs (ropp K p).
Proof. intros H. apply (ideal_eq K gs (rmul (ropp K r1) p)); [ring|apply ideal_mul, H]. Qed.
Lemma expand_ideal gs a (phi : list R -> R) l : (forall x, Forall (ideal K gs) x -> ideal K gs (phi x)) -> Forall (ideal K gs) l -> ideal K gs (expand a phi l).
Proof.
  revert phi. induction l as [|r l IH]; intros phi H F; cbn [ResSpec.expand]; [apply ideal_0|].
  inversion F; subst. apply ideal_add; [apply ideal_mul, H; assumption|]. apply ideal_ropp, IH; [|assumption]. intros x Fx. apply H. constructor; assumption.
Qed.
Lemma det_ideal gs (cs : list (R -> R)) l : Forall (ideal K gs) l -> ideal K gs (det_by (cs ++ [fun p => p]) l).
Proof.
  revert l. induction cs as [|c cs IH]; intros l F; cbn [app ResSpec.det_by].
  - assert (X : forall phi, ideal K gs (expand (fun p => p) phi l)); [|apply X].
    induction F as [|r l Hr _ IHl]; intros phi; cbn [ResSpec.expand]; [apply ideal_0|].
    apply ideal_add; [|apply ideal_ropp, IHl]. apply (ideal_eq K gs (rmul (phi l) r)); [ring|apply ideal_mul, Hr].
  - apply expand_ideal; assumption.
Qed.
End RD.
