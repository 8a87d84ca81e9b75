(** * Greatest common divisors of multivariate polynomials exist (K a domain with gcds of constants),
    and the polynomials free of one variable form a GCD domain over which all polynomials are polynomials in that variable. *)
From Coq Require Import Ring_theory Ring Setoid Morphisms Lia Arith.
From Verif Require Import Prelude Coef Spec SpecProofs SpecOps SpecOpsProofs GcdDom.
Local Open Scope N_scope.

Lemma forallb_false_ex {T} (f : T -> bool) l : forallb f l = false -> exists t, In t l /\ f t = false.
Proof.
  induction l as [|t l IH]; cbn [forallb In]; [discriminate|]. destruct (f t) eqn:Ft; cbn [andb].
  - intros E. destruct (IH E) as [u [I U]]. exists u. auto.
  - intros _. exists t. auto.
Qed.

Section GP.
Context {C : Type} (K : coefs C) (HD : domain_ok K).
Let HK : ring_ok K := domain_ring K HD.
Local Existing Instance HK.
Add Ring Kring : (ring_laws K HK).
Add Ring Rring : (rring K HK) (setoid (req_equiv K) (rring_ext K HK)).
Notation "0c" := (c0 K). Notation "1c" := (c1 K).
Notation coef := (coef K). Notation req := (req K).
Notation rmul := (rmul K). Notation rcst := (rconst).
Local Infix "==" := req (at level 70).

Local Notation gdom := (gdom (@r0 C) (r1 K) (@radd C) rmul (ropp K) req).
Local Notation isgcd := (isgcd rmul req).
Local Notation dvd := (dvd rmul req).
Local Notation RE := (req_equiv K). Local Notation RX := (rring_ext K HK). Local Notation RT := (rring K HK).

(** the greatest common divisor property in the whole polynomial ring *)
Definition is_gcd (a b g : rpoly C) : Prop := rdivides K g a /\ rdivides K g b /\
  forall d, rdivides K d a -> rdivides K d b -> rdivides K d g.

Lemma rzero_dec (p : rpoly C) : p == r0 \/ ~ p == r0.
Proof.
  destruct (forallb (fun t => ceqb K (coef p (fst t)) 0c) p) eqn:E.
  - left. intros m. cbn. destruct (c0_dec K HK (coef p m)) as [Z0|N]; [exact Z0|].
    destruct (coef_supp K p m N) as [m' [I M]]. apply in_map_iff in I as [t [<- It]].
    rewrite forallb_forall in E. specialize (E t It). apply (ceqb_eq K HK) in E. rewrite <- E. symmetry. apply (coef_proper K HK). exact M.
  - right. intros H. enough (forallb (fun t => ceqb K (coef p (fst t)) 0c) p = true) by congruence.
    apply forallb_forall. intros t _. apply (ceqb_eq K HK). apply H.
Qed.
Lemma not_zero_coef (p : rpoly C) : ~ p == r0 -> exists m, coef p m <> 0c.
Proof.
  intros N. destruct (forallb (fun t => ceqb K (coef p (fst t)) 0c) p) eqn:E.
  - exfalso. apply N. intros m. cbn. destruct (c0_dec K HK (coef p m)) as [Z0|N']; [exact Z0|].
    destruct (coef_supp K p m N') as [m' [I M]]. apply in_map_iff in I as [t [<- It]].
    rewrite forallb_forall in E. specialize (E t It). apply (ceqb_eq K HK) in E. rewrite <- E. symmetry. apply (coef_proper K HK). exact M.
  - assert (exists t, In t p /\ ceqb K (coef p (fst t)) 0c = false) as [t [_ Ht]].
    { apply (forallb_false_ex _ _ E). }
    exists (fst t). intros Z0. rewrite Z0 in Ht. rewrite (proj2 (ceqb_eq K HK 0c 0c) eq_refl) in Ht. discriminate.
Qed.

(** Variables of a polynomial lie in the list [V]. *)
Definition inV (V : list var) (p : rpoly C) : Prop := forall m v, coef p m <> 0c -> exp m v <> 0 -> In v V.
(** [v] does not occur. *)
Definition vfree (v : var) (p : rpoly C) : Prop := forall m, coef p m <> 0c -> exp m v = 0.

#[global] Instance inV_proper V : Proper (req ==> iff) (inV V).
Proof. intros p q E. unfold inV. split; intros H m v Hm; apply H; [rewrite (E m)|rewrite <- (E m)]; exact Hm. Qed.
#[global] Instance vfree_proper v : Proper (req ==> iff) (vfree v).
Proof. intros p q E. unfold vfree. split; intros H m Hm; apply H; [rewrite (E m)|rewrite <- (E m)]; exact Hm. Qed.

(** support predicates [M] closed under products of monomials *)
Section Supp.
Context (P : smono -> Prop) (P0 : P []) (Pm : forall a b, P a -> P b -> P (a ++ b)) (PE : forall a b, meq a b -> P a -> P b).
Definition spt (p : rpoly C) : Prop := forall m, coef p m <> 0c -> P m.
Lemma spt_0 : spt r0.
Proof. intros m H. exfalso. apply H. reflexivity. Qed.
Lemma spt_const c : spt (rconst c).
Proof.
  intros m H. cbn [Spec.coef rconst] in H. destruct (meqb_spec [] m) as [E|E]; [apply (PE []); assumption|]. contradiction.
Qed.
Lemma spt_add p q : spt p -> spt q -> spt (radd p q).
Proof. intros H H' m Hm. apply coef_add_supp in Hm; auto. destruct Hm; auto. Qed.
Lemma spt_opp p : spt p -> spt (ropp K p).
Proof. intros H m Hm. apply coef_opp_supp in Hm; auto. Qed.
Lemma spt_mul p q : spt p -> spt q -> spt (rmul p q).
Proof.
  intros H H' m Hm. apply coef_mul_supp in Hm; auto. destruct Hm as [m1 [m2 [N1 [N2 E]]]].
  apply (PE (m1 ++ m2)); auto.
Qed.
End Supp.

Definition PV (V : list var) (m : smono) : Prop := forall v, exp m v <> 0 -> In v V.
Lemma PV_0 V : PV V []. Proof. intros v H. exfalso. apply H. reflexivity. Qed.
Lemma PV_m V a b : PV V a -> PV V b -> PV V (a ++ b).
Proof. intros Ha Hb v H. rewrite exp_app in H. destruct (N.eq_dec (exp a v) 0); [apply Hb; lia|apply Ha; assumption]. Qed.
Lemma PV_e V a b : meq a b -> PV V a -> PV V b.
Proof. intros E H v Hv. apply H. rewrite (E v). exact Hv. Qed.
Lemma inV_spt V p : inV V p <-> spt (PV V) p.
Proof. split; [intros H m Hm v; apply H, Hm|intros H m v Hm; apply H, Hm]. Qed.
Definition Pf (v : var) (m : smono) : Prop := exp m v = 0.
Lemma Pf_m v a b : Pf v a -> Pf v b -> Pf v (a ++ b).
Proof. unfold Pf. intros Ha Hb. rewrite exp_app. lia. Qed.
Lemma Pf_e v a b : meq a b -> Pf v a -> Pf v b.
Proof. unfold Pf. intros E H. rewrite <- (E v). exact H. Qed.

(** ** closure *)
Lemma inV_0 V : inV V r0. Proof. apply inV_spt, spt_0. Qed.
Lemma inV_const V c : inV V (rconst c). Proof. apply inV_spt, spt_const; [apply PV_0|apply PV_e]. Qed.
Lemma inV_add V p q : inV V p -> inV V q -> inV V (radd p q). Proof. rewrite !inV_spt. apply spt_add. Qed.
Lemma inV_opp V p : inV V p -> inV V (ropp K p). Proof. rewrite !inV_spt. apply spt_opp. Qed.
Lemma inV_mul V p q : inV V p -> inV V q -> inV V (rmul p q). Proof. rewrite !inV_spt. apply spt_mul; [apply PV_m|apply PV_e]. Qed.
Lemma vfree_0 v : vfree v r0. Proof. apply (spt_0 (Pf v)). Qed.
Lemma vfree_const v c : vfree v (rconst c). Proof. apply (spt_const (Pf v)); [reflexivity|apply Pf_e]. Qed.
Lemma vfree_add v p q : vfree v p -> vfree v q -> vfree v (radd p q). Proof. apply (spt_add (Pf v)). Qed.
Lemma vfree_opp v p : vfree v p -> vfree v (ropp K p). Proof. apply (spt_opp (Pf v)). Qed.
Lemma vfree_mul v p q : vfree v p -> vfree v q -> vfree v (rmul p q). Proof. apply (spt_mul (Pf v)); [apply Pf_m|apply Pf_e]. Qed.

(** ** constants *)
Lemma inV_nil p : inV [] p -> p == rconst (coef p []).
Proof.
  intros H m. cbn [Spec.coef rconst]. destruct (meqb_spec [] m) as [E|E].
  - transitivity (coef p []); [symmetry; apply (coef_proper K HK); exact E|]. ring.
  - destruct (c0_dec K HK (coef p m)) as [Z0|N]; [exact Z0|]. exfalso. apply E. intros v. cbn.
    destruct (N.eq_dec (exp m v) 0) as [e|e]; [auto|]. destruct (H m v N e).
Qed.
Lemma rconst_mul a b : rmul (rconst a) (rconst b) == rconst (cmul K a b).
Proof. apply req_single; auto. intros v. reflexivity. Qed.
Lemma rconst_inj a b : rconst a == rconst b -> a = b.
Proof. intros H. specialize (H []). cbn in H. transitivity (cadd K a 0c); [ring|]. rewrite H. ring. Qed.
Lemma rconst_0 : rconst 0c == r0.
Proof. intros m. cbn [Spec.coef rconst r0]. destruct (meqb [] m); [ring|reflexivity]. Qed.
Lemma rconst_eq a b : a = b -> rconst a == rconst b.
Proof. intros ->. reflexivity. Qed.

Definition cdvd (d a : C) : Prop := exists q, a = cmul K q d.
(** constants have greatest common divisors *)
Definition cgcd_ok : Prop := forall a b, exists g, cdvd g a /\ cdvd g b /\ forall d, cdvd d a -> cdvd d b -> cdvd d g.
Context (HG : cgcd_ok).

Lemma const_coef a : coef (rconst a) [] = a.
Proof. cbn. ring. Qed.
Lemma dvd_cst a b : dvd (inV []) (rconst a) (rconst b) <-> cdvd a b.
Proof.
  split.
  - intros [q [Hq E]]. apply inV_nil in Hq. exists (coef q []). apply rconst_inj. rewrite E. rewrite <- rconst_mul.
    apply (rmul_proper K HK); [exact Hq|reflexivity].
  - intros [q E]. exists (rconst q). split; [apply inV_const|]. rewrite rconst_mul, E. reflexivity.
Qed.
Lemma dvdP (A : rpoly C -> Prop) d d' p p' : d == d' -> p == p' -> dvd A d p -> dvd A d' p'.
Proof. intros E E' [q [Hq H]]. exists q. split; [exact Hq|]. rewrite <- E, <- E'. exact H. Qed.

Lemma gdom_const : gdom (inV []).
Proof.
  split.
  - intros a b E. rewrite E. auto.
  - apply inV_0.
  - apply inV_const.
  - apply inV_add.
  - apply inV_mul.
  - apply inV_opp.
  - intros a b Ha Hb E. apply inV_nil in Ha. apply inV_nil in Hb. rewrite Ha, Hb, rconst_mul, <- rconst_0 in E.
    apply rconst_inj in E. apply (domain_integral K HD) in E as [E|E]; [left; rewrite Ha|right; rewrite Hb]; rewrite E; apply rconst_0.
  - intros a b Ha Hb. apply inV_nil in Ha. apply inV_nil in Hb. destruct (HG (coef a []) (coef b [])) as [g [G1 [G2 U]]].
    exists (rconst g). split; [apply inV_const|].
    split; [apply (dvdP _ (rconst g) _ (rconst (coef a []))); [reflexivity|symmetry; exact Ha|apply dvd_cst, G1]|].
    split; [apply (dvdP _ (rconst g) _ (rconst (coef b []))); [reflexivity|symmetry; exact Hb|apply dvd_cst, G2]|].
    intros d Hd D1 D2. apply inV_nil in Hd. apply (dvdP _ (rconst (coef d [])) d (rconst g) _ (symmetry Hd) (reflexivity _)). apply dvd_cst. 
    apply U; apply dvd_cst; [apply (dvdP _ d _ a _ Hd Ha D1)|apply (dvdP _ d _ b _ Hd Hb D2)].
Qed.

(** ** one more variable *)
Local Notation pwv v := (pw (r1 K) rmul (rvar K v)).
Lemma pw_mono v n : pwv v n == rmono K [(v, N.of_nat n)].
Proof.
  induction n as [|n IH]; cbn [pw].
  - apply req_single; [intros w; cbn; destruct (N.eqb v w); reflexivity|reflexivity].
  - rewrite IH. change (rmul (rmono K [(v, 1)]) (rmono K [(v, N.of_nat n)]) == rmono K [(v, N.of_nat (S n))]).
    rewrite <- (rmono_app K HK). apply req_single; [|reflexivity]. intros w. cbn [app exp]. destruct (N.eqb v w); lia.
Qed.
Lemma coef_pw v n p m : coef (rmul p (pwv v n)) m = if N.of_nat n <=? exp m v then coef p ((v, exp m v - N.of_nat n) :: mdrop v m) else 0c.
Proof. rewrite <- (coef_shift K HK). apply (rmul_proper K HK); [reflexivity|apply pw_mono]. Qed.

Section Step.
Context (A : rpoly C -> Prop) (v : var) (Af : forall p, A p -> vfree v p).
Local Notation DD := (D (@r0 C) (r1 K) (@radd C) rmul req A (rvar K v)).
Lemma DD_deg n p : DD n p -> deg_lt K p v (N.of_nat n).
Proof.
  revert p. induction n as [|n IH]; intros p H.
  - cbn in H. intros m Hm. exfalso. apply Hm. rewrite (H m). reflexivity.
  - destruct H as [p1 [a [H1 [Ha E]]]]. intros m Hm. rewrite (E m) in Hm. apply (coef_add_supp K HK) in Hm as [Hm|Hm].
    + specialize (IH p1 H1 m Hm). lia.
    + rewrite coef_pw in Hm. destruct (N.leb_spec (N.of_nat n) (exp m v)) as [L|L]; [|contradiction].
      apply (Af a Ha) in Hm. cbn in Hm. rewrite N.eqb_refl, exp_mdrop, N.eqb_refl in Hm. lia.
Qed.
Lemma DD_uniq n p p' a a' : DD n p -> DD n p' -> A a -> A a' -> radd p (rmul a (pwv v n)) == radd p' (rmul a' (pwv v n)) -> a == a'.
Proof.
  intros Hp Hp' Ha Ha' E m. pose proof (DD_deg n p Hp) as L. pose proof (DD_deg n p' Hp') as L'.
  assert (G : forall p a, deg_lt K p v (N.of_nat n) -> A a -> exp m v = 0 -> coef (radd p (rmul a (pwv v n))) ((v, N.of_nat n) :: m) = coef a m).
  { clear -Af HK. intros p a L Ha Z0. unfold radd. rewrite (coef_app K HK), coef_pw. cbn [exp]. rewrite N.eqb_refl, Z0, N.add_0_r.
    rewrite N.leb_refl, N.sub_diag.
    assert (coef p ((v, N.of_nat n) :: m) = 0c) as X.
    { destruct (c0_dec K HK (coef p ((v, N.of_nat n) :: m))) as [X|X]; [exact X|]. specialize (L _ X). cbn [exp] in L. rewrite N.eqb_refl in L. lia. }
    rewrite X. transitivity (coef a ((v, 0) :: mdrop v ((v, N.of_nat n) :: m))); [ring|]. apply (coef_proper K HK). intros w.
    cbn [mdrop filter fst negb]. rewrite N.eqb_refl. cbn [negb exp]. fold (mdrop v m). rewrite exp_mdrop.
    destruct (N.eqb_spec w v) as [e|e]; [subst w; rewrite N.eqb_refl; lia|]. destruct (N.eqb v w); lia. }
  destruct (N.eq_dec (exp m v) 0) as [Z0|N0].
  - rewrite <- (G p a L Ha Z0), <- (G p' a' L' Ha' Z0). apply E.
  - transitivity 0c; [|symmetry]; [destruct (c0_dec K HK (coef a m)) as [X|X]|destruct (c0_dec K HK (coef a' m)) as [X|X]]; auto; exfalso; apply N0; [apply (Af a Ha m X)|apply (Af a' Ha' m X)].
Qed.
End Step.

Local Notation Dv A v := (D (@r0 C) (r1 K) (@radd C) rmul req A (rvar K v)).
Local Notation Bv A v := (B (@r0 C) (r1 K) (@radd C) rmul req A (rvar K v)).

Lemma D_of_sum (A : rpoly C -> Prop) v n f : (forall d, A (f d)) -> Dv A v n (rbig n (fun d => rmul (f d) (rmono K [(v, d)]))).
Proof.
  intros H. induction n as [|n IH]; cbn [D rbig]; [reflexivity|].
  eexists _, (f (N.of_nat n)). split; [exact IH|]. split; [apply H|]. rewrite pw_mono. reflexivity.
Qed.
Lemma deg_bound (p : rpoly C) v : exists n, deg_lt K p v (N.of_nat n).
Proof.
  assert (exists d, forall m, In m (map fst p) -> exp m v < d) as [d H].
  { induction (map fst p) as [|m l [d IH]]; [exists 0; intros m []|]. exists (N.max d (exp m v + 1)). intros m' [<-|I]; [lia|].
    specialize (IH m' I). lia. }
  exists (N.to_nat d). intros m Hm. rewrite N2Nat.id. apply coef_supp in Hm as [m' [I E]]. rewrite <- (E v). apply H, I.
Qed.
Lemma B_free v (A : rpoly C -> Prop) p : (forall d, A (rcoeff K v d p)) -> Bv A v p.
Proof.
  intros H. destruct (deg_bound p v) as [n L]. exists n. apply (rcoeff_sum K HK) in L.
  apply (D_proper _ _ _ _ _ (req_equiv K)  _ _ n _ _ (symmetry L)). apply D_of_sum. exact H.
Qed.
Lemma rcoeff_free v d p : vfree v (rcoeff K v d p).
Proof. intros m H. rewrite (coef_rcoeff K HK) in H. destruct (N.eqb_spec (exp m v) 0); [assumption|contradiction]. Qed.
Lemma rcoeff_inV v d V p : inV (v :: V) p -> inV V (rcoeff K v d p).
Proof.
  intros H m w Hm Hw. pose proof (rcoeff_free v d p m Hm) as F. rewrite (coef_rcoeff K HK) in Hm.
  destruct (N.eqb_spec (exp m v) 0) as [_|]; [|contradiction].
  destruct (N.eq_dec w v) as [->|n]; [contradiction|]. destruct (H _ w Hm) as [e|I]; [|congruence|exact I].
  cbn [exp]. rewrite exp_mdrop. destruct (N.eqb_spec w v); [contradiction|lia].
Qed.
Lemma inV_cons v V p : inV V p -> inV (v :: V) p.
Proof. intros H m w Hm Hw. right. apply (H m w); assumption. Qed.
Lemma inV_rvar v V : In v V -> inV V (rvar K v).
Proof.
  intros I m w Hm Hw. unfold rvar in Hm. cbn [Spec.coef] in Hm. destruct (meqb_spec [(v, 1)] m) as [E|E]; [|contradiction].
  rewrite <- (E w) in Hw. cbn [exp] in Hw. destruct (N.eqb_spec v w) as [->|]; [exact I|lia].
Qed.
Lemma inV_pw v V n : In v V -> inV V (pwv v n).
Proof. intros I. induction n; cbn [pw]; [apply inV_const|]. apply inV_mul; [apply inV_rvar, I|assumption]. Qed.
Lemma B_inV v V p : inV (v :: V) p <-> Bv (inV V) v p.
Proof.
  split.
  - intros H. apply B_free. intros d. apply rcoeff_inV, H.
  - intros [n H]. revert p H. induction n as [|n IH]; intros p H.
    + cbn in H. rewrite H. apply inV_0.
    + destruct H as [p1 [a [H1 [Ha E]]]]. rewrite E. apply inV_add; [apply IH, H1|]. apply inV_mul; [apply inV_cons, Ha|apply inV_pw; left; reflexivity].
Qed.
Lemma gdom_iff (A A' : rpoly C -> Prop) : (forall p, A p <-> A' p) -> gdom A -> gdom A'.
Proof.
  intros H [G1 G2 G3 G4 G5 G6 G7 G8].
  assert (forall d p, dvd A d p <-> dvd A' d p) as HD'.
  { intros d p. split; intros [q [Hq E]]; exists q; split; auto; apply H; exact Hq. }
  split; try (intros; apply H; auto; fail).
  - intros a b E Ha. apply H. apply (G1 a b E). apply H, Ha.
  - intros a b Ha Hb. apply H, G4; apply H; assumption.
  - intros a b Ha Hb. apply H, G5; apply H; assumption.
  - intros a Ha. apply H, G6, H, Ha.
  - intros a b Ha Hb. apply G7; apply H; assumption.
  - intros a b Ha Hb. destruct (G8 a b) as [g [Hg [D1 [D2 U]]]]; [apply H, Ha|apply H, Hb|].
    exists g. split; [apply H, Hg|]. split; [apply HD', D1|]. split; [apply HD', D2|]. intros d Hd E1 E2. apply HD', U; [apply H, Hd|apply HD', E1|apply HD', E2].
Qed.
Lemma inV_free v V p : ~ In v V -> inV V p -> vfree v p.
Proof. intros N H m Hm. destruct (N.eq_dec (exp m v) 0) as [e|e]; [exact e|]. destruct (N (H m v Hm e)). Qed.

Lemma gdom_inV V : gdom (inV V).
Proof.
  induction V as [|v V IH]; [exact gdom_const|]. destruct (in_dec N.eq_dec v V) as [I|I].
  - apply (gdom_iff (inV V)); [|exact IH]. intros p. split; [apply inV_cons|]. intros H m w Hm Hw. destruct (H m w Hm Hw) as [<-|X]; assumption.
  - apply (gdom_iff (Bv (inV V) v)); [intros p; symmetry; apply B_inV|].
    apply (gdom_step _ _ _ _ _ _ _ RE RX RT rzero_dec (inV V) IH (rvar K v)).
    apply DD_uniq. intros p. apply inV_free, I.
Qed.

Definition vars_of (p : rpoly C) : list var := flat_map (fun t => map fst (fst t)) p.
Lemma exp_in m v : exp m v <> 0 -> In v (map fst m).
Proof. intros H. destruct (in_dec N.eq_dec v (map fst m)) as [I|I]; [exact I|]. destruct H. apply exp_notin, I. Qed.
Lemma inV_vars p : inV (vars_of p) p.
Proof.
  intros m v Hm Hv. apply coef_supp in Hm as [m' [I E]]. rewrite <- (E v) in Hv. apply exp_in in Hv.
  apply in_map_iff in I as [t [<- It]]. apply in_flat_map. exists t. auto.
Qed.
Lemma inV_incl V W p : incl V W -> inV V p -> inV W p.
Proof. intros I H m v Hm Hv. apply I, (H m v); assumption. Qed.

Lemma rintegral a b : rmul a b == r0 -> a == r0 \/ b == r0.
Proof.
  apply (gd_integral _ _ _ _ _ _ _ (gdom_inV (vars_of a ++ vars_of b))).
  - apply (inV_incl (vars_of a)); [auto with datatypes|apply inV_vars].
  - apply (inV_incl (vars_of b)); [auto with datatypes|apply inV_vars].
Qed.
Lemma rcancel a b c : ~ c == r0 -> rmul a c == rmul b c -> a == b.
Proof.
  intros N E. destruct (rintegral (radd a (ropp K b)) c) as [H|H]; [|transitivity (radd (radd a (ropp K b)) b); [ring|rewrite H; ring]|contradiction].
  transitivity (radd (rmul a c) (ropp K (rmul b c))); [ring|]. rewrite E. ring.
Qed.

Lemma free_div w a q d : a == rmul q d -> ~ a == r0 -> vfree w a -> vfree w d.
Proof.
  intros E Na Fa. set (U := remove N.eq_dec w (vars_of a ++ vars_of q ++ vars_of d)).
  assert (Nw : ~ In w U) by apply remove_In.
  assert (HU : forall p, incl (vars_of p) (vars_of a ++ vars_of q ++ vars_of d) -> inV (w :: U) p).
  { intros p I. apply (inV_incl (vars_of p)); [|apply inV_vars]. intros x Hx. destruct (N.eq_dec x w) as [->|n]; [left; reflexivity|].
    right. apply in_in_remove; [exact n|]. apply I, Hx. }
  assert (Bq : inV (w :: U) q) by (apply HU; auto with datatypes). assert (Bd : inV (w :: U) d) by (apply HU; auto with datatypes).
  assert (Aa : inV U a).
  { intros m x Hm Hx. assert (Ba : inV (w :: U) a) by (apply HU; auto with datatypes). destruct (Ba m x Hm Hx) as [<-|I]; [|exact I].
    exfalso. apply Hx, Fa, Hm. }
  apply B_inV in Bq as [n Dq]. apply B_inV in Bd as [n' Dd].
  pose proof (gdom_inV U) as GU.
  assert (UQ := DD_uniq (inV U) w (fun p => inV_free w U p Nw)).
  assert (Nq : ~ q == r0) by (intros Z0; apply Na; rewrite E, Z0; ring).
  assert (Nd : ~ d == r0) by (intros Z0; apply Na; rewrite E, Z0; ring).
  destruct (lead _ _ _ _ _ _ _ RE RX RT rzero_dec (inV U) GU (rvar K w) UQ n q Dq Nq) as [i [q1 [al [_ [H1 [Ha [Nal Eq]]]]]]].
  destruct (lead _ _ _ _ _ _ _ RE RX RT rzero_dec (inV U) GU (rvar K w) UQ n' d Dd Nd) as [j [d1 [be [_ [H2 [Hb [Nbe Ed]]]]]]].
  destruct (Nat.eq_dec (i + j) 0) as [Z0|NZ].
  - assert (j = 0)%nat as -> by lia. cbn in H2. rewrite Ed. cbn [pw]. rewrite H2.
    apply vfree_add; [apply vfree_0|]. apply vfree_mul; [apply (inV_free w U); assumption|apply vfree_const].
  - exfalso. assert (L : Dv (inV U) w (i + j) (radd (rmul q1 d) (rmul (rmul al (pwv w i)) d1))).
    { apply (D_add _ _ _ _ _ _ _ RE RX RT (inV U) GU).
      - apply (D_mul _ _ _ _ _ _ _ RE RX RT rzero_dec (inV U) GU (rvar K w) UQ); [exact H1|]. exists d1, be. auto.
      - rewrite Nat.add_comm. apply (D_proper _ _ _ _ _ RE (inV U) (rvar K w) _ (rmul (rmul al d1) (pwv w i))); [ring|].
        apply (D_pw _ _ _ _ _ _ _ RE RX RT (inV U) GU). apply (D_scale _ _ _ _ _ _ _ RE RX RT (inV U) GU); assumption. }
    assert (rmul al be == r0) as Z1.
    { apply (UQ (i + j)%nat _ a _ r0 L); [|apply inV_mul; assumption|apply inV_0|].
      - apply (D_le _ _ _ _ _ _ _ RE RX RT (inV U) GU (rvar K w) 1); [lia|]. apply (D_1 _ _ _ _ _ _ _ RE RX RT (inV U) GU). exact Aa.
      - rewrite (pw_add _ _ _ _ _ _ _ RE RX RT).
        transitivity (radd (rmul q1 d) (rmul (rmul al (pwv w i)) (radd d1 (rmul be (pwv w j))))); [ring|]. rewrite <- Ed.
        transitivity (rmul (radd q1 (rmul al (pwv w i))) d); [ring|]. rewrite <- Eq, <- E. ring. }
    apply (gd_integral _ _ _ _ _ _ _ GU) in Z1 as [Z1|Z1]; auto.
Qed.
Lemma free_div' w a q d : a == rmul q d -> ~ a == r0 -> vfree w a -> vfree w q.
Proof. intros E. apply (free_div w a d q). rewrite E. ring. Qed.
Lemma inV_div V a q d : a == rmul q d -> ~ a == r0 -> inV V a -> inV V d.
Proof.
  intros E Na Ha m w Hm Hw. destruct (in_dec N.eq_dec w V) as [I|I]; [exact I|]. exfalso. apply Hw.
  apply (free_div w a q d E Na); [apply (inV_free w V); assumption|exact Hm].
Qed.
Lemma inV_div' V a q d : a == rmul q d -> ~ a == r0 -> inV V a -> inV V q.
Proof. intros E. apply (inV_div V a d q). rewrite E. ring. Qed.

(** a sub-domain closed under divisors inherits gcds *)
Lemma dvd_T d p : dvd (fun _ => True) d p <-> rdivides K d p.
Proof. split; [intros [q [_ E]]; exists q; exact E|intros [q E]; exists q; auto]. Qed.

Theorem gcd_exists a b : exists g, is_gcd a b g.
Proof.
  assert (R : forall a, rdivides K a a) by (intros x; exists (r1 K); ring).
  assert (Z : forall d a, a == r0 -> rdivides K d a) by (intros d x E; exists r0; rewrite E; ring).
  destruct (rzero_dec a) as [Za|Na]; [exists b; split; [apply Z, Za|]; split; [apply R|]; auto|].
  destruct (rzero_dec b) as [Zb|Nb]; [exists a; split; [apply R|]; split; [apply Z, Zb|]; auto|].
  set (V := vars_of a ++ vars_of b). pose proof (gdom_inV V) as G.
  assert (Va : inV V a) by (apply (inV_incl (vars_of a)); [unfold V; auto with datatypes|apply inV_vars]).
  assert (Vb : inV V b) by (apply (inV_incl (vars_of b)); [unfold V; auto with datatypes|apply inV_vars]).
  destruct (gd_gcd _ _ _ _ _ _ _ G a b Va Vb) as [g [Hg [[q1 [_ G1]] [[q2 [_ G2]] U]]]].
  exists g. split; [exists q1; exact G1|]. split; [exists q2; exact G2|].
  intros d [u Hu] [w Hw]. destruct (U d) as [q [_ E]]; [apply (inV_div V a u); assumption| | |exists q; exact E].
  - exists u. split; [apply (inV_div' V a u d); assumption|exact Hu].
  - exists w. split; [apply (inV_div' V b w d); assumption|exact Hw].
Qed.

Lemma gdom_vfree v : gdom (vfree v).
Proof.
  split.
  - intros a b E. rewrite E. auto.
  - apply vfree_0.
  - apply vfree_const.
  - apply vfree_add.
  - apply vfree_mul.
  - apply vfree_opp.
  - intros a b _ _. apply rintegral.
  - intros a b Ha Hb. destruct (rzero_dec a) as [Za|Na].
    { exists b. split; [exact Hb|]. split; [exists r0; split; [apply vfree_0|rewrite Za; ring]|]. split; [exists (r1 K); split; [apply vfree_const|ring]|]. auto. }
    destruct (rzero_dec b) as [Zb|Nb].
    { exists a. split; [exact Ha|]. split; [exists (r1 K); split; [apply vfree_const|ring]|]. split; [exists r0; split; [apply vfree_0|rewrite Zb; ring]|]. auto. }
    destruct (gcd_exists a b) as [g [[q1 G1] [[q2 G2] U]]]. assert (Fg : vfree v g) by (apply (free_div v a q1); assumption).
    assert (Ng : ~ g == r0) by (intros Z0; apply Na; rewrite G1, Z0; ring).
    exists g. split; [exact Fg|]. split; [exists q1; split; [apply (free_div' v a q1 g); assumption|exact G1]|].
    split; [exists q2; split; [apply (free_div' v b q2 g); assumption|exact G2]|].
    intros d Hd [u [_ Hu]] [w [_ Hw]]. destruct (U d) as [q E]; [exists u; exact Hu|exists w; exact Hw|].
    exists q. split; [apply (free_div' v g q d); assumption|exact E].
Qed.
Lemma vfree_uniq v n p p' a a' : Dv (vfree v) v n p -> Dv (vfree v) v n p' -> vfree v a -> vfree v a' ->
  radd p (rmul a (pwv v n)) == radd p' (rmul a' (pwv v n)) -> a == a'.
Proof. apply DD_uniq. auto. Qed.
Lemma B_all v p : Bv (vfree v) v p.
Proof. apply B_free. intros d. apply rcoeff_free. Qed.
Lemma D_deg v n p : Dv (vfree v) v n p <-> deg_lt K p v (N.of_nat n).
Proof.
  split; [apply DD_deg; auto|]. intros L. apply (rcoeff_sum K HK) in L.
  apply (D_proper _ _ _ _ _ (req_equiv K)  _ _ n _ _ (symmetry L)). apply D_of_sum. intros d. apply rcoeff_free.
Qed.
End GP.

(** integer constants *)
Lemma Z_cgcd : cgcd_ok Zc.
Proof.
  intros a b. exists (Z.gcd a b). destruct (Z.gcd_divide_l a b) as [q E]. destruct (Z.gcd_divide_r a b) as [q' E'].
  split; [exists q; exact E|]. split; [exists q'; exact E'|]. intros d [u Hu] [w Hw]. cbn in *.
  destruct (Z.gcd_greatest a b d) as [k Hk]; [exists u; exact Hu|exists w; exact Hw|]. exists k. exact Hk.
Qed.
Lemma field_cgcd {C} (K : coefs C) : field_ok K -> cgcd_ok K.
Proof.
  intros F a b. pose proof (ring_laws K (domain_ring K (field_domain K F))) as HR.
  assert (Q : forall d x, d <> c0 K -> cdvd K d x) by (intros d x N; exists (cquo K x d); symmetry; apply (field_quo K F), N).
  assert (I : forall a, cdvd K a a) by (intros x; exists (c1 K); symmetry; apply (Rmul_1_l HR)).
  destruct (ceqb_spec K (domain_ring K (field_domain K F)) a (c0 K)) as [Za|Na].
  - subst a. exists b. split; [|split; [apply I|auto]]. destruct (ceqb_spec K (domain_ring K (field_domain K F)) b (c0 K)) as [->|N]; [apply I|apply Q, N].
  - exists a. split; [apply I|]. split; [apply Q, Na|auto].
Qed.
