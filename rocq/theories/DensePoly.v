(** * Dense polynomials: addition, multiplication, division compute the mathematical operations. *)
From Coq Require Import Ring_theory Ring Setoid Morphisms Znumtheory.
From Verif Require Import Prelude Coef Spec SpecProofs NumSpec Zp ZpProofs Dense DenseWord.
Local Open Scope Z_scope.

(** [dval p Hp l]: the polynomial l_0 + l_1 X + l_2 X^2 + ... over Z/p (the variable of univariate
    polynomials is number 0). *)
Fixpoint dval (p : Z) (Hp : modulus p) (l : list Z) : rpoly (zpc p) :=
  match l with
  | [] => r0
  | a :: l => radd (rconst (zpc_of p Hp a)) (rmul (Zpc p Hp) (rvar (Zpc p Hp) 0%N) (dval p Hp l))
  end.

Section DP.
Variable p : Z.
Hypothesis Hp : modulus p.
Notation K := (Zpc p Hp).
Let HK : ring_ok K := Zpc_ring p Hp.
Local Existing Instance HK.
Add Ring Rring : (rring K HK) (setoid (req_equiv K) (rring_ext K HK)).
Notation "a == b" := (req K a b) (at level 70).
Notation rp := (rpoly (zpc p)).
Definition cst (x : Z) : rp := rconst (zpc_of p Hp x).
Notation X := (rvar K 0%N).
Notation D := (dval p Hp).
Notation Xp n := (rpow K X n).

Lemma zpc_of_mod a b : a mod p = b mod p -> zpc_of p Hp a = zpc_of p Hp b.
Proof. intros H. apply zpc_eq. exact H. Qed.
Lemma cst_eq a b : a mod p = b mod p -> cst a == cst b.
Proof. intros H. unfold cst. rewrite (zpc_of_mod a b H). reflexivity. Qed.
Lemma p_nz : p <> 0. Proof. unfold modulus in Hp. lia. Qed.
Lemma cst_mod a : cst (a mod p) == cst a.
Proof. apply cst_eq. apply Z.mod_mod, p_nz. Qed.
Lemma rc_add (a b : zpc p) : rconst (cadd K a b) == radd (rconst a) (rconst b).
Proof. intros m. unfold radd, rconst. cbn [Spec.coef app]. destruct (meqb [] m); [|reflexivity].
  cbn. apply zpc_eq. rewrite !v_add, v_of. pose proof p_nz. rewrite !Z.mod_0_l by assumption. rewrite !Z.add_0_r. rewrite Zplus_mod_idemp_r, Z.mod_mod by assumption. reflexivity.
Qed.
Lemma rc_mul (a b : zpc p) : rconst (cmul K a b) == rmul K (rconst a) (rconst b).
Proof. intros m. unfold rmul, rconst. cbn [Spec.coef app flat_map map fst snd]. reflexivity. Qed.
Lemma of_add a b : zpc_of p Hp (a + b) = cadd K (zpc_of p Hp a) (zpc_of p Hp b).
Proof. apply zpc_eq. cbn [cadd Zpc]. rewrite v_add, !v_of. rewrite <- Zplus_mod. reflexivity. Qed.
Lemma of_mul a b : zpc_of p Hp (a * b) = cmul K (zpc_of p Hp a) (zpc_of p Hp b).
Proof. apply zpc_eq. cbn [cmul Zpc]. rewrite v_mul, !v_of. rewrite <- Zmult_mod. reflexivity. Qed.
Lemma cst_add a b : cst (a + b) == radd (cst a) (cst b).
Proof. unfold cst. rewrite of_add. apply rc_add. Qed.
Lemma cst_mul a b : cst (a * b) == rmul K (cst a) (cst b).
Proof. unfold cst. rewrite of_mul. apply rc_mul. Qed.
Lemma cst_1 : cst 1 == r1 K. Proof. reflexivity. Qed.
Lemma cst_0 : cst 0 == r0.
Proof. intros m. unfold cst, rconst, r0. cbn [Spec.coef]. destruct (meqb [] m); [|reflexivity]. apply zpc_eq. cbn [cadd Zpc c0]. rewrite v_add, !v_of. pose proof p_nz. rewrite !Z.mod_0_l by assumption. reflexivity. Qed.
Lemma cst_opp a : cst (- a) == ropp K (cst a).
Proof.
  transitivity (radd (radd (cst (- a)) (cst a)) (ropp K (cst a))); [ring|]. rewrite <- cst_add. replace (- a + a) with 0 by ring. rewrite cst_0. ring.
Qed.
Lemma cst_sub a b : cst (a - b) == radd (cst a) (ropp K (cst b)).
Proof. rewrite <- cst_opp, <- cst_add. reflexivity. Qed.

Lemma xp_add n m : Xp (n + m) == rmul K (Xp n) (Xp m).
Proof. induction n as [|n IH]; cbn [Nat.add rpow]; [ring|]. rewrite IH. ring. Qed.
Lemma D_cons a l : D (a :: l) == radd (cst a) (rmul K X (D l)). Proof. reflexivity. Qed.
Lemma D_app l1 l2 : D (l1 ++ l2) == radd (D l1) (rmul K (Xp (length l1)) (D l2)).
Proof. induction l1 as [|a l1 IH]; cbn [app length dval rpow]; [ring|]. rewrite IH. ring. Qed.
Lemma D_zero l : Forall (fun a => a mod p = 0) l -> D l == r0.
Proof. induction 1 as [|a l Ha _ IH]; cbn [dval]; [reflexivity|]. fold (cst a). rewrite IH, (cst_eq a 0), cst_0; [ring|]. rewrite Ha. symmetry. apply Z.mod_0_l, p_nz. Qed.
Lemma D_repeat n : D (repeat 0 n) == r0.
Proof. apply D_zero. apply Forall_forall. intros x Hx. apply repeat_spec in Hx as ->. apply Z.mod_0_l, p_nz. Qed.
Lemma D_strip l : D (strip l) == D l.
Proof.
  induction l as [|a l IH]; [reflexivity|]. cbn [strip]. rewrite D_cons, <- IH. destruct (strip l) as [|b r]; [|reflexivity].
  destruct (Z.eqb_spec a 0) as [->|Na]; [|reflexivity]. cbn [dval]. rewrite cst_0. ring.
Qed.
Notation res := (Forall (residue p)).
Lemma res_strip l : res l -> res (strip l).
Proof.
  induction 1 as [|a l Ha _ IH]; [constructor|]. cbn [strip]. destruct (strip l); [destruct (a =? 0); constructor; auto|]. constructor; assumption.
Qed.
Lemma strip_length l : (length (strip l) <= length l)%nat.
Proof. induction l as [|a l IH]; [apply le_n|]. cbn [strip length]. destruct (strip l); [destruct (a =? 0); cbn; lia|]. cbn [length] in *. lia. Qed.
Definition stripped (l : dpoly) : Prop := strip l = l.
Lemma strip_strip l : stripped (strip l).
Proof.
  unfold stripped. induction l as [|a l IH]; [reflexivity|]. cbn [strip]. destruct (strip l) as [|b r].
  - destruct (Z.eqb_spec a 0); [reflexivity|]. cbn [strip]. destruct (Z.eqb_spec a 0); [contradiction|reflexivity].
  - change (strip (a :: b :: r)) with (match strip (b :: r) with [] => if a =? 0 then [] else [a] | r' => a :: r' end). rewrite IH. reflexivity.
Qed.
Lemma stripped_cons a l : stripped (a :: l) -> stripped l /\ (l = [] -> a <> 0).
Proof.
  unfold stripped. intros H. assert (L : length (strip (a :: l)) = Datatypes.S (length l)) by (rewrite H; reflexivity).
  cbn [strip] in *. destruct (strip l) as [|b r] eqn:Es.
  - destruct (Z.eqb_spec a 0); cbn [length] in L; [lia|]. destruct l; [auto|]. cbn [length] in L. lia.
  - injection H as H. split; [exact H|]. intros ->. discriminate.
Qed.
Lemma stripped_top l : stripped l -> l <> [] -> nth (length l - 1) l 0 <> 0.
Proof.
  induction l as [|a l IH]; intros S Ne; [contradiction|]. apply stripped_cons in S as [S Ha]. destruct l as [|b l]; [exact (Ha eq_refl)|].
  specialize (IH S ltac:(discriminate)). cbn [length] in *. replace (Datatypes.S (Datatypes.S (length l)) - 1)%nat with (Datatypes.S (Datatypes.S (length l) - 1)) by lia. exact IH.
Qed.
Lemma stripped_of l : (l <> [] -> nth (length l - 1) l 0 <> 0) -> stripped l.
Proof.
  induction l as [|a l IH]; intros H; [reflexivity|]. unfold stripped. cbn [strip].
  destruct l as [|b l].
  - cbn [strip]. destruct (Z.eqb_spec a 0) as [->|]; [exfalso; apply H; [discriminate|reflexivity]|reflexivity].
  - rewrite IH; [reflexivity|]. intros _. specialize (H ltac:(discriminate)). cbn [length] in *.
    replace (S (S (length l)) - 1)%nat with (S (S (length l) - 1)) in H by lia. exact H.
Qed.
Lemma stripped_nil : stripped []. Proof. reflexivity. Qed.
Lemma stripped_skipn n l : stripped l -> stripped (skipn n l).
Proof. revert l. induction n; intros l S; [exact S|]. destruct l as [|a l]; [exact S|]. cbn [skipn]. apply IHn. apply stripped_cons in S. apply S. Qed.
Lemma res_skipn n l : res l -> res (skipn n l).
Proof. intros H. rewrite <- (firstn_skipn n l) in H. apply Forall_app in H. apply H. Qed.
Lemma res_firstn n l : res l -> res (firstn n l).
Proof. intros H. rewrite <- (firstn_skipn n l) in H. apply Forall_app in H. apply H. Qed.
Lemma res_nth l i : res l -> residue p (nth i l 0).
Proof.
  intros H. destruct (Nat.lt_ge_cases i (length l)) as [L|L]; [rewrite Forall_forall in H; apply H, nth_In, L|].
  rewrite nth_overflow by exact L. unfold residue, modulus in *. lia.
Qed.
Lemma res_repeat n : res (repeat 0 n).
Proof. apply Forall_forall. intros x Hx. apply repeat_spec in Hx as ->. unfold residue, modulus in *. lia. Qed.
Lemma res_mod x : residue p (x mod p). Proof. apply mod_res, Hp. Qed.

(** ** coefficients are determined by the polynomial *)
Lemma coef_X (q : rp) k : coef K (rmul K X q) [(0%N, N.succ k)] = coef K q [(0%N, k)].
Proof.
  unfold rvar, rmul. cbn [flat_map map app fst snd]. rewrite app_nil_r. induction q as [|[m c] q IH]; [reflexivity|].
  cbn [map Spec.coef fst snd]. rewrite IH.
  replace (meqb ((0%N, 1%N) :: m) [(0%N, N.succ k)]) with (meqb m [(0%N, k)]).
  - destruct (meqb m [(0%N, k)]); [|reflexivity]. f_equal. apply zpc_eq. cbn [cmul Zpc]. rewrite v_mul. cbn [c1 Zpc]. rewrite v_of.
    rewrite Zmult_mod_idemp_l, Z.mul_1_l. pose proof (zpc_res p c) as R. unfold residue in R. apply Z.mod_small, R.
  - destruct (meqb_spec m [(0%N, k)]) as [e|e], (meqb_spec ((0%N, 1%N) :: m) [(0%N, N.succ k)]) as [e'|e']; try reflexivity; exfalso.
    + apply e'. intros v. cbn [exp]. rewrite (e v). cbn [exp]. destruct (N.eqb 0 v); lia.
    + apply e. intros v. specialize (e' v). cbn [exp] in *. destruct (N.eqb 0 v); lia.
Qed.
Lemma coef_X0 (q : rp) : coef K (rmul K X q) [(0%N, 0%N)] = c0 K.
Proof.
  unfold rvar, rmul. cbn [flat_map map app fst snd]. rewrite app_nil_r. induction q as [|[m c] q IH]; [reflexivity|].
  cbn [map Spec.coef fst snd]. rewrite IH. destruct (meqb_spec ((0%N, 1%N) :: m) [(0%N, 0%N)]) as [e|e]; [|reflexivity].
  specialize (e 0%N). cbn [exp] in e. rewrite N.eqb_refl in e. lia.
Qed.
Lemma coef_cst a k : coef K (cst a) [(0%N, k)] = if N.eqb k 0 then zpc_of p Hp a else c0 K.
Proof.
  unfold cst, rconst. cbn [Spec.coef]. destruct (meqb_spec [] [(0%N, k)]) as [e|e], (N.eqb_spec k 0) as [e'|e']; try reflexivity.
  - apply zpc_eq. cbn [cadd Zpc c0]. rewrite v_add, !v_of, Z.mod_0_l, Z.add_0_r, Z.mod_mod by apply p_nz. reflexivity.
  - exfalso. specialize (e 0%N). cbn [exp] in e. rewrite N.eqb_refl in e. lia.
  - exfalso. apply e. subst k. intros v. cbn [exp]. destruct (N.eqb 0 v); reflexivity.
Qed.
Lemma coef_D l k : coef K (D l) [(0%N, N.of_nat k)] = zpc_of p Hp (nth k l 0).
Proof.
  revert k. induction l as [|a l IH]; intros k; [destruct k; reflexivity|]. cbn [dval]. fold (cst a). unfold radd. rewrite (coef_app K HK).
  rewrite coef_cst. destruct k as [|k].
  - change (N.of_nat 0) with 0%N. rewrite coef_X0. cbn [N.eqb nth]. apply zpc_eq. cbn [cadd Zpc c0]. rewrite v_add, !v_of, Z.mod_0_l, Z.add_0_r, Z.mod_mod by apply p_nz. reflexivity.
  - rewrite Nat2N.inj_succ, coef_X, IH. cbn [nth]. destruct (N.eqb_spec (N.succ (N.of_nat k)) 0); [lia|]. apply zpc_eq. cbn [cadd Zpc c0]. rewrite v_add, !v_of, Z.mod_0_l, Z.add_0_l, Z.mod_mod by apply p_nz. reflexivity.
Qed.
Lemma D_nth l1 l2 k : res l1 -> res l2 -> D l1 == D l2 -> nth k l1 0 = nth k l2 0.
Proof.
  intros R1 R2 E. specialize (E [(0%N, N.of_nat k)]). rewrite !coef_D in E. apply (f_equal (@proj1_sig _ _)) in E. rewrite !v_of in E.
  pose proof (res_nth l1 k R1) as A. pose proof (res_nth l2 k R2) as B. unfold residue in *. rewrite !Z.mod_small in E by assumption. exact E.
Qed.
Lemma D_inj l1 l2 : res l1 -> res l2 -> stripped l1 -> stripped l2 -> D l1 == D l2 -> l1 = l2.
Proof.
  intros R1 R2 S1 S2 E. assert (H : forall k, nth k l1 0 = nth k l2 0) by (intros k; apply D_nth; assumption).
  assert (L : length l1 = length l2).
  { destruct (Nat.lt_trichotomy (length l1) (length l2)) as [L|[L|L]]; [|exact L|]; exfalso.
    - apply (stripped_top l2 S2); [intros ->; cbn in L; lia|]. rewrite <- H. apply nth_overflow. lia.
    - apply (stripped_top l1 S1); [intros ->; cbn in L; lia|]. rewrite H. apply nth_overflow. lia. }
  apply (nth_ext l1 l2 0 0 L). intros k _. apply H.
Qed.
Lemma D_nil l : res l -> stripped l -> D l == r0 -> l = [].
Proof. intros R S E. apply D_inj; auto using stripped_nil. Qed.

(** ** addition and subtraction *)
Lemma res_zero : residue p 0. Proof. unfold residue, modulus in *. lia. Qed.
Lemma add_raw_ok A B : res A -> res B -> res (add_raw p A B) /\ D (add_raw p A B) == radd (D A) (D B) /\ length (add_raw p A B) = Nat.max (length A) (length B).
Proof.
  intros RA. revert B. induction RA as [|a A Ha RA IH]; intros B RB.
  - split; [exact RB|]. split; [cbn [dval add_raw]; ring|reflexivity].
  - destruct RB as [|b B Hb RB]; [split; [constructor; assumption|]; split; [cbn [dval add_raw]; ring|reflexivity]|].
    destruct (IH B RB) as (R & E & L). cbn [add_raw]. rewrite (nmod_add_ok p a b Hp Ha Hb). split; [constructor; [apply res_mod|exact R]|]. split.
    + rewrite !D_cons, E, cst_mod, cst_add. ring.
    + cbn [length]. rewrite L. reflexivity.
Qed.
Lemma neg_ok b : residue p b -> residue p (if b =? 0 then 0 else wrap64 (p - b)) /\ cst (if b =? 0 then 0 else wrap64 (p - b)) == ropp K (cst b).
Proof.
  intros Hb. rewrite <- cst_opp. pose proof Hp as Hp'. unfold residue, modulus in *. destruct (Z.eqb_spec b 0) as [->|Nb]; [split; [lia|reflexivity]|].
  rewrite wrap64_id by lia. split; [lia|]. apply cst_eq. replace (p - b) with (- b + 1 * p) by ring. apply Z_mod_plus_full.
Qed.
Lemma sub_raw_ok A B : res A -> res B -> res (sub_raw p A B) /\ D (sub_raw p A B) == radd (D A) (ropp K (D B)) /\ length (sub_raw p A B) = Nat.max (length A) (length B).
Proof.
  intros RA. revert B. induction RA as [|a A Ha RA IH]; intros B RB.
  - cbn [sub_raw]. induction RB as [|b B Hb RB IH]; [split; [constructor|]; split; [cbn [dval map]; ring|reflexivity]|].
    destruct IH as (R & E & L). destruct (neg_ok b Hb) as [R' E']. cbn [map length] in *. split; [constructor; assumption|]. split; [|rewrite L; reflexivity].
    rewrite !D_cons, E, E'. cbn [dval]. ring.
  - destruct RB as [|b B Hb RB]; [split; [constructor; assumption|]; split; [cbn [dval sub_raw]; ring|reflexivity]|].
    destruct (IH B RB) as (R & E & L). cbn [sub_raw]. rewrite (nmod_sub_ok p a b Hp Ha Hb). split; [constructor; [apply res_mod|exact R]|]. split.
    + rewrite !D_cons, E, cst_mod, cst_sub. ring.
    + cbn [length]. rewrite L. reflexivity.
Qed.
Lemma poly_add_ok A B : res A -> res B -> res (poly_add p A B) /\ stripped (poly_add p A B) /\ D (poly_add p A B) == radd (D A) (D B) /\
  (length (poly_add p A B) <= Nat.max (length A) (length B))%nat.
Proof.
  intros RA RB. destruct (add_raw_ok A B RA RB) as (R & E & L). unfold poly_add. split; [apply res_strip, R|]. split; [apply strip_strip|].
  split; [rewrite D_strip; exact E|]. rewrite <- L. apply strip_length.
Qed.
Lemma poly_sub_ok A B : res A -> res B -> res (poly_sub p A B) /\ stripped (poly_sub p A B) /\ D (poly_sub p A B) == radd (D A) (ropp K (D B)) /\
  (length (poly_sub p A B) <= Nat.max (length A) (length B))%nat.
Proof.
  intros RA RB. destruct (sub_raw_ok A B RA RB) as (R & E & L). unfold poly_sub. split; [apply res_strip, R|]. split; [apply strip_strip|].
  split; [rewrite D_strip; exact E|]. rewrite <- L. apply strip_length.
Qed.
End DP.
