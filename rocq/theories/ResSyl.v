(** * The determinant polynomial of rows of low degree is the determinant of their coefficients;
      exchange of columns. *)
From Coq Require Import Ring_theory Ring Setoid Morphisms Lia.
From Verif Require Import Prelude Coef Spec SpecProofs SpecOps SpecOpsProofs GcdDom GcdPoly GcdMath ResSpec ResDet ResMath ResChain.

Section Leib.
Context {C : Type} (K : coefs C).
Notation R := (rpoly C).
Lemma expand_ext_eq {A} (a a' : A -> R) (f g : list A -> R) l : (forall r, a r = a' r) -> (forall x, f x = g x) -> expand K a f l = expand K a' g l.
Proof. revert f g. induction l as [|r l IH]; intros f g Ha Hf; cbn [expand]; [reflexivity|]. rewrite Ha, Hf. rewrite (IH (fun x => f (r :: x)) (fun x => g (r :: x)) Ha); [reflexivity|intros; apply Hf]. Qed.
Lemma expand_map {A B} (h : A -> B) a (f : list B -> R) l : expand K a f (map h l) = expand K (fun x => a (h x)) (fun l => f (map h l)) l.
Proof. revert f. induction l as [|r l IH]; intros f; cbn [expand map]; [reflexivity|]. rewrite IH. reflexivity. Qed.
Lemma det_map {A B} (h : A -> B) (cs : list (B -> R)) (cs' : list (A -> R)) : Forall2 (fun c c' => forall x, c (h x) = c' x) cs cs' ->
  forall l, det_by K cs (map h l) = det_by K cs' l.
Proof.
  induction 1 as [|c c' cs cs' H _ IH]; intros l; cbn [det_by]; [destruct l; reflexivity|].
  rewrite expand_map. apply expand_ext_eq; assumption.
Qed.
End Leib.

Section RS.
Context {C : Type} (K : coefs C) (HD : domain_ok K) (v : var).
Let HK : ring_ok K := domain_ring K HD.
Local Existing Instance HK.
Add Ring Kring : (ring_laws K HK).
Add Ring Rring : (rring K HK) (setoid (req_equiv K) (rring_ext K HK)).
Notation R := (rpoly C).
Notation req := (req K). Notation rmul := (rmul K). Notation rpow := (rpow K).
Local Infix "==" := req (at level 70).
Notation r0 := (@Spec.r0 C). Notation r1 := (Spec.r1 K).
Notation free := (vfree K v).
Notation cf := (cf K v). Notation dl := (dl K v).
Notation expand := (expand K). Notation det_by := (det_by K).

Lemma expand_nest (a b : R -> R) (phi : list R -> R) r rs :
  expand a (expand b phi) (r :: rs) == radd (radd (rmul (a r) (expand b phi rs)) (ropp K (rmul (b r) (expand a phi rs)))) (expand a (expand b (fun l => phi (r :: l))) rs).
Proof.
  cbn [ResSpec.expand]. pose proof (expand_lin K HD a (ropp K r1) (expand b (fun l => phi (r :: l))) (fun l => rmul (b r) (phi l)) rs) as E.
  pose proof (expand_lin K HD a (b r) phi (fun _ => r0) rs) as E2.
  pose proof (expand_zero K HD a (fun _ => r0) rs ltac:(reflexivity)) as E3.
  assert (E4 : expand a (fun l => rsub K (rmul (b r) (phi l)) (expand b (fun l0 => phi (r :: l0)) l)) rs ==
    expand a (fun x => radd (rmul (ropp K r1) (expand b (fun l => phi (r :: l)) x)) (rmul (b r) (phi x))) rs).
  { apply (expand_ext K HD). intros x. unfold rsub. ring. }
  assert (E5 : expand a (fun l => rmul (b r) (phi l)) rs == expand a (fun x => radd (rmul (b r) (phi x)) r0) rs) by (apply (expand_ext K HD); intros x; ring).
  unfold rsub at 1. rewrite E4, E, E5, E2, E3. ring.
Qed.
Lemma expand_swap (a b : R -> R) (phi : list R -> R) l : expand a (expand b phi) l == ropp K (expand b (expand a phi) l).
Proof.
  revert phi. induction l as [|r rs IH]; intros phi; [cbn [ResSpec.expand]; ring|]. rewrite !expand_nest, (IH (fun l => phi (r :: l))). ring.
Qed.
Lemma expand_same (a : R -> R) (phi : list R -> R) l : expand a (expand a phi) l == r0.
Proof.
  revert phi. induction l as [|r rs IH]; intros phi; [reflexivity|]. rewrite expand_nest, (IH (fun l => phi (r :: l))). ring.
Qed.
Lemma det_dup0 c (cs : list (R -> R)) : In c cs -> forall l, det_by (c :: cs) l == r0.
Proof.
  induction cs as [|d cs IH]; intros H l; [destruct H|]. cbn [ResSpec.det_by]. destruct H as [->|H]; [apply expand_same|].
  rewrite expand_swap. transitivity (ropp K r0); [|ring]. rewrite (expand_zero K HD d (expand c (det_by cs)) l); [reflexivity|]. exact (IH H).
Qed.
Lemma det_dup (pre : list (R -> R)) c cs : In c cs -> forall l, det_by (pre ++ c :: cs) l == r0.
Proof.
  intros H. induction pre as [|d pre IH]; intros l; [apply det_dup0, H|]. cbn [app ResSpec.det_by]. apply (expand_zero K HD). exact IH.
Qed.
Lemma det_dead (pre : list (R -> R)) c l : (forall x, In x l -> c x == r0) -> det_by (pre ++ [c]) l == r0.
Proof.
  revert l. induction pre as [|d pre IH]; intros l H; cbn [app ResSpec.det_by]; [apply (expand_dead K HD); exact H|].
  assert (G : forall l (psi : list R -> R), (forall x, (forall y, In y x -> c y == r0) -> psi x == r0) -> (forall x, In x l -> c x == r0) -> expand d psi l == r0).
  { clear -HK HD. induction l as [|r rs IH]; intros psi H1 H2; cbn [ResSpec.expand]; [reflexivity|]. unfold rsub. rewrite (H1 rs) by (intros; apply H2; right; assumption).
    rewrite (IH (fun l => psi (r :: l))); [ring| |intros; apply H2; right; assumption]. intros x Hx. apply H1. intros y [<-|Hy]; [apply H2; left; reflexivity|apply Hx, Hy]. }
  apply G; [intros x Hx; apply IH, Hx|exact H].
Qed.

(** the columns of [DP 0]: coefficients n-1, ..., 1, then the row itself *)
Lemma cols_0 n : cols K v 0 (Datatypes.S n) = map cf (rev (seq 1 n)) ++ [fun p => p].
Proof.
  induction n as [|n IH]; [reflexivity|]. change (cols K v 0 (Datatypes.S (Datatypes.S n))) with (cf (0 + Datatypes.S n) :: cols K v 0 (Datatypes.S n)). rewrite IH.
  rewrite (seq_S n 1), rev_app_distr. reflexivity.
Qed.
Lemma free_of_cf p : (forall j, 1 <= j -> cf j p == r0) -> free p.
Proof.
  intros H. apply (dl_1_free K v). intros m Hm. destruct (N.eq_dec (exp m v) 0) as [E|E]; [lia|].
  exfalso. apply (cf_nz K HD v (N.to_nat (exp m v)) p m Hm); [lia|]. apply H. lia.
Qed.
Lemma cf_0_free p : free p -> cf 0 p == p.
Proof.
  intros H m. unfold ResMath.cf. rewrite (coef_rcoeff K HK). destruct (N.eqb_spec (exp m v) 0) as [E|E].
  - rewrite (coef_free_at K HD v p m (N.of_nat 0) H E). reflexivity.
  - destruct (ceqb K (coef K p m) (c0 K)) eqn:X; [apply (ceqb_eq K HK) in X; auto|]. exfalso. apply E, (H m). intros Y. rewrite Y in X. rewrite (proj2 (ceqb_eq K HK _ _) eq_refl) in X. discriminate.
Qed.
Lemma cs_free n : Forall (fun c => forall r, free (c r)) (map cf (rev (seq 1 n))).
Proof. apply Forall_forall. intros c Hc. apply in_map_iff in Hc as (k & <- & _). apply (cf_free K HD). Qed.
Lemma DP0_free n rows : length rows = Datatypes.S n -> Forall (dl (Datatypes.S n)) rows -> free (DP K v 0 rows).
Proof.
  intros L H. rewrite (DP_len K v 0 _ _ L). unfold DPn. rewrite cols_0. apply free_of_cf. intros j Hj.
  rewrite (lin_det K HD v (cf j) (map cf (rev (seq 1 n))) rows (cf_lin K HD v j) (cs_free n)).
  destruct (Nat.le_gt_cases j n) as [Le|Gt].
  - assert (I : In (cf j) (map cf (rev (seq 1 n)))) by (apply in_map, in_rev; rewrite rev_involutive; apply in_seq; lia).
    apply in_split in I as (pre & post & ->). rewrite <- app_assoc. cbn [app]. apply det_dup. apply in_or_app. right. left. reflexivity.
  - apply det_dead. intros x Hx. rewrite Forall_forall in H. apply (cf_dl K HD v (Datatypes.S n)); [apply H, Hx|lia].
Qed.
Lemma DP0_det n rows : length rows = Datatypes.S n -> Forall (dl (Datatypes.S n)) rows -> DP K v 0 rows == det_by (map cf (rev (seq 0 (Datatypes.S n)))) rows.
Proof.
  intros L H. rewrite <- (cf_0_free _ (DP0_free n rows L H)). rewrite (DP_len K v 0 _ _ L). unfold DPn. rewrite cols_0.
  rewrite (lin_det K HD v (cf 0) (map cf (rev (seq 1 n))) rows (cf_lin K HD v 0) (cs_free n)). cbn [seq rev]. rewrite map_app. reflexivity.
Qed.
Lemma det_coeff k (rows : list R) : length rows = k -> determinant K (map (coeff_row K v k) rows) = det_by (map cf (rev (seq 0 k))) rows.
Proof.
  intros L. unfold determinant. rewrite map_length, L. apply det_map.
  assert (G : forall a n, a + n = k -> Forall2 (fun (c : list R -> R) c' => forall x, c (coeff_row K v k x) = c' x) (map entry_at (seq a n)) (map cf (rev (seq 0 n)))).
  { intros a n. revert a. induction n as [|n IH]; intros a Ha; [constructor|]. rewrite (seq_S n 0), rev_app_distr. cbn [seq map rev app]. constructor; [|apply IH; lia].
    intros x. unfold entry_at, coeff_row. rewrite (nth_indep _ r0 (rcoeff K v (N.of_nat 0) x)) by (rewrite map_length, rev_length, seq_length; lia).
    rewrite (map_nth (fun i => rcoeff K v (N.of_nat i) x)). rewrite rev_nth by (rewrite seq_length; lia). rewrite seq_length, seq_nth by lia. unfold ResMath.cf. do 2 f_equal. lia. }
  apply (G 0 k). lia.
Qed.
(** the 0-th subresultant is the Sylvester determinant *)
Lemma subres_det m l F G : 1 <= m + l -> dl (Datatypes.S m) F -> dl (Datatypes.S l) G -> subres K v m l F G 0 == determinant K (sylvester K v m l F G).
Proof.
  intros H HF HGG. unfold subres, sylvester. rewrite !Nat.sub_0_r.
  assert (L : length (shifts K v l F ++ shifts K v m G) = m + l) by (rewrite app_length, !(shifts_length K v); lia).
  rewrite (det_coeff (m + l) _ L). destruct (m + l) as [|n] eqn:E; [lia|]. apply DP0_det; [exact L|].
  apply Forall_app. split; [apply (shifts_dl K HD v l F (Datatypes.S m)); [exact HF|lia]|apply (shifts_dl K HD v m G (Datatypes.S l)); [exact HGG|lia]].
Qed.
Lemma subres_free m l F G : 1 <= m + l -> dl (Datatypes.S m) F -> dl (Datatypes.S l) G -> free (subres K v m l F G 0).
Proof.
  intros H HF HGG. unfold subres. rewrite !Nat.sub_0_r.
  assert (L : length (shifts K v l F ++ shifts K v m G) = m + l) by (rewrite app_length, !(shifts_length K v); lia).
  destruct (m + l) as [|n] eqn:E; [lia|]. apply (DP0_free n); [exact L|].
  apply Forall_app. split; [apply (shifts_dl K HD v l F (Datatypes.S m)); [exact HF|lia]|apply (shifts_dl K HD v m G (Datatypes.S l)); [exact HGG|lia]].
Qed.
Lemma subres_ideal m l F G : 1 <= m + l -> ideal K [F; G] (subres K v m l F G 0).
Proof.
  intros H. unfold subres. rewrite !Nat.sub_0_r.
  assert (L : length (shifts K v l F ++ shifts K v m G) = m + l) by (rewrite app_length, !(shifts_length K v); lia).
  destruct (m + l) as [|n] eqn:E; [lia|]. rewrite (DP_len K v 0 _ _ L). unfold DPn. rewrite cols_0. apply (det_ideal K HD).
  apply Forall_app. split; apply (shifts_ideal K v); apply ideal_gen; [left; reflexivity|right; left; reflexivity].
Qed.
End RS.
