(** * Squarefree decomposition in characteristic 0, with respect to one variable (mathematics only). *)
From Coq Require Import Ring_theory Ring Setoid Morphisms Lia Arith.
From Verif Require Import Prelude Coef Spec SpecProofs SpecOps SpecOpsProofs GcdDom GcdPoly GcdMath.
Local Open Scope N_scope.

Section SM.
Context {C : Type} (K : coefs C) (HD : domain_ok K) (HG : cgcd_ok K).
Hypothesis char0 : forall n, cnat K (Datatypes.S n) <> c0 K.
Let HK : ring_ok K := domain_ring K HD.
Local Existing Instance HK.
Add Ring Kring : (ring_laws K HK).
Add Ring Rring : (rring K HK) (setoid (req_equiv K) (rring_ext K HK)).
Notation "0c" := (c0 K). Notation "1c" := (c1 K).
Notation coef := (coef K). Notation req := (req K).
Notation rmul := (rmul K). Notation rpow := (rpow K).
Local Infix "==" := req (at level 70).
Local Notation "d %| p" := (rdivides K d p) (at level 70).
Local Notation is_gcd := (is_gcd K).
Local Notation vfree := (vfree K).
Local Notation Z0 := (rzero_dec K HD).
Local Notation deriv := (rderiv K).

(** ** the derivative lowers the degree by one *)
Lemma coef_deriv v p m : coef (deriv v p) m = cmul K (cnat K (N.to_nat (exp m v + 1))) (coef p ((v, exp m v + 1) :: mdrop v m)).
Proof.
  unfold rderiv. rewrite (coef_rlin K HK), (coef_rsum K HK), <- (rsum_scal K HK). apply (rsum_ext K). intros m' c _. cbn [Spec.coef].
  unfold delta. destruct (N.eq_dec (exp m' v) 0) as [E|E].
  - rewrite E. cbn [N.to_nat cnat]. destruct (meqb_spec m' ((v, exp m v + 1) :: mdrop v m)) as [B|B].
    + specialize (B v). cbn [exp] in B. rewrite N.eqb_refl in B. lia.
    + destruct (meqb _ _); ring.
  - destruct (meqb_spec ((v, exp m' v - 1) :: mdrop v m') m) as [A|A], (meqb_spec m' ((v, exp m v + 1) :: mdrop v m)) as [B|B]; try ring.
    + pose proof (A v) as Av. cbn [exp] in Av. rewrite N.eqb_refl, exp_mdrop, N.eqb_refl in Av.
      replace (exp m v + 1) with (exp m' v) by lia. ring.
    + exfalso. apply B. intros w. specialize (A w). cbn [exp] in *. rewrite exp_mdrop in *.
      destruct (N.eqb_spec w v) as [e0|n]; [subst w; rewrite N.eqb_refl in *; lia|]. destruct (N.eqb_spec v w); [congruence|]. lia.
    + exfalso. apply A. intros w. pose proof (B v) as Bv. specialize (B w). cbn [exp] in *. rewrite N.eqb_refl, exp_mdrop, N.eqb_refl in Bv. rewrite exp_mdrop in *.
      destruct (N.eqb_spec w v) as [e0|n]; [subst w; rewrite N.eqb_refl in *; lia|]. destruct (N.eqb_spec v w); [congruence|]. lia.
Qed.
Lemma deriv_le v p d : deg_le K p v (d + 1) -> deg_le K (deriv v p) v d.
Proof.
  intros L m Hm. rewrite coef_deriv in Hm. assert (N1 : coef p ((v, exp m v + 1) :: mdrop v m) <> 0c) by (intros X; apply Hm; rewrite X; ring).
  specialize (L _ N1). cbn [exp] in L. rewrite N.eqb_refl, exp_mdrop, N.eqb_refl in L. lia.
Qed.
Lemma deriv_nz v p d : deg_is K p v (d + 1) -> ~ deriv v p == r0.
Proof.
  intros [_ [X|(m & Hm & Em)]] E; [lia|]. specialize (E ((v, d) :: mdrop v m)). rewrite coef_deriv in E. cbn [Spec.coef r0 exp] in E.
  rewrite N.eqb_refl, exp_mdrop, N.eqb_refl in E. replace (d + 0 + 1) with (N.of_nat (Datatypes.S (N.to_nat d))) in E by lia. rewrite Nat2N.id in E.
  apply (domain_integral K HD) in E as [E|E]; [exact (char0 _ E)|]. apply Hm. rewrite <- E. apply (coef_proper K HK). intros w. cbn [exp]. rewrite !exp_mdrop. cbn [exp]. rewrite !exp_mdrop, ?N.eqb_refl.
  destruct (N.eqb_spec w v) as [e0|n]; [subst w; rewrite N.eqb_refl; lia|]. destruct (N.eqb_spec v w); [congruence|]. lia.
Qed.


(** ** prime divisors of a primitive polynomial *)
Definition unit (p : rpoly C) : Prop := p %| r1 K.
Hypothesis unit_dec : forall p, unit p \/ ~ unit p.

Section Prim.
Context (v : var) (F : rpoly C).
Hypothesis PF : is_prim K v F.
Hypothesis NF : ~ F == r0.

Lemma div_nz d : d %| F -> ~ d == r0. Proof. intros D. apply (rd_nz K HD d F D NF). Qed.
Lemma nonunit_deg d n : d %| F -> ~ unit d -> deg_is K d v n -> 1 <= n.
Proof.
  intros D U [L _]. destruct (N.eq_dec n 0) as [->|]; [|lia]. exfalso. apply U, PF; [|exact D]. apply (deg_free K). exact L.
Qed.
Definition minimal (h : rpoly C) : Prop := h %| F /\ ~ unit h /\
  forall d, d %| h -> ~ unit d -> h %| d.

Lemma minimal_of_deg h n : h %| F -> ~ unit h -> deg_is K h v n -> (forall d k, d %| h -> ~ unit d -> deg_is K d v k -> n <= k) -> minimal h.
Proof.
  intros Dh Uh Hn M. split; [exact Dh|]. split; [exact Uh|]. intros d Dd Ud. pose proof Dd as [q Eq].
  destruct (deg_exists K HD d v) as [k Hk]. destruct (deg_exists K HD q v) as [j Hj].
  pose proof (M d k Dd Ud Hk) as L. assert (Nd : ~ d == r0) by (apply div_nz, (rd_trans K HD d h); assumption).
  assert (Nq : ~ q == r0) by (intros X; apply (div_nz h Dh); rewrite Eq, X; ring).
  pose proof (deg_is_mul K HD HG q d v j k Nq Nd Hj Hk) as Hm.
  assert (Hm' : deg_is K h v (j + k)).
  { destruct Hm as [H1 H2]. split; [intros m Hm; apply H1; rewrite <- (Eq m); exact Hm|]. destruct H2 as [H2|(m & H2 & H3)]; [auto|right; exists m; rewrite (Eq m); auto]. }
  assert (j = 0) as -> by (pose proof (deg_is_unique K h v _ _ Hn Hm'); lia).
  assert (Uq : unit q). { apply PF; [apply (deg_free K), Hj|]. apply (rd_trans K HD q h); [|exact Dh]. exists d. rewrite Eq. ring. }
  destruct Uq as [i Ei]. exists i. transitivity (rmul (r1 K) d); [ring|]. rewrite Ei, Eq. ring.
Qed.
Lemma minimal_exists n : forall A, A %| F -> ~ unit A -> (exists a, deg_is K A v a /\ a <= N.of_nat n) -> ~ ~ exists h, h %| A /\ minimal h.
Proof.
  induction n as [|n IH]; intros A DA UA (a & Ha & La) X.
  { pose proof (nonunit_deg A a DA UA Ha). lia. }
  apply X. exists A. split; [apply (rd_refl K HD)|]. apply (minimal_of_deg A a DA UA Ha). intros d k Dd Ud Hk.
  destruct (N.le_gt_cases a k) as [L|L]; [exact L|]. exfalso.
  assert (DdF : d %| F) by (apply (rd_trans K HD d A); assumption).
  assert (Lk : k <= N.of_nat n) by lia. apply (IH d DdF Ud (ex_intro _ k (conj Hk Lk))). intros (h & D1 & M). apply X. exists h. split; [apply (rd_trans K HD h d); assumption|exact M].
Qed.
Lemma minimal_ex A : A %| F -> ~ unit A -> ~ ~ exists h, h %| A /\ minimal h.
Proof.
  intros DA UA. destruct (deg_exists K HD A v) as [a Ha]. apply (minimal_exists (N.to_nat a) A DA UA). exists a. split; [exact Ha|lia].
Qed.

Section Min.
Context (h : rpoly C) (Mh : minimal h).
Lemma min_split B : h %| B \/ coprime K h B.
Proof.
  destruct (gcd_exists K HD HG h B) as [g Hg]. destruct Hg as (G1 & G2 & G3). destruct (unit_dec g) as [U|U].
  - right. intros d D1 D2. apply (rd_trans K HD d g); [apply G3; assumption|exact U].
  - left. apply (rd_trans K HD h g); [|exact G2]. apply Mh; assumption.
Qed.
Lemma min_not_both B : h %| B -> ~ coprime K h B.
Proof. intros D X. apply Mh. apply X; [apply (rd_refl K HD)|exact D]. Qed.
Lemma min_prime A B : h %| rmul A B -> ~ h %| A -> h %| B.
Proof. intros D N1. destruct (min_split A) as [X|X]; [contradiction|]. apply (euclid K HD HG h A B X D). Qed.
Lemma min_deg : exists n, deg_is K h v n /\ 1 <= n.
Proof. destruct (deg_exists K HD h v) as [n Hn]. exists n. split; [exact Hn|]. destruct Mh as (M1 & M2 & _). apply (nonunit_deg h n M1 M2 Hn). Qed.
Lemma valuation B : B %| F -> exists e u, B == rmul (rpow h e) u /\ ~ h %| u.
Proof.
  intros DB. destruct (deg_exists K HD B v) as [b Hb]. remember (N.to_nat b) as n eqn:En. assert (Ln : (N.to_nat b <= n)%nat) by lia. clear En.
  revert B b DB Hb Ln. induction n as [|n IH]; intros B b DB Hb Ln.
  - exists O, B. split; [cbn [Spec.rpow]; ring|]. intros [q Eq]. destruct min_deg as (k & Hk & Lk). destruct (deg_exists K HD q v) as [j Hj].
    assert (Nq : ~ q == r0) by (intros X; apply (div_nz B DB); rewrite Eq, X; ring).
    pose proof (deg_is_mul K HD HG q h v j k Nq (div_nz h (proj1 Mh)) Hj Hk) as [_ [Hm|(m & H1 & H2)]]; [lia|].
    destruct Hb as [Hb _]. rewrite <- (Eq m) in H1. specialize (Hb m H1). lia.
  - destruct (min_split B) as [[q Eq]|X].
    + destruct min_deg as (k & Hk & Lk). destruct (deg_exists K HD q v) as [j Hj].
      assert (Nq : ~ q == r0) by (intros X; apply (div_nz B DB); rewrite Eq, X; ring).
      pose proof (deg_is_mul K HD HG q h v j k Nq (div_nz h (proj1 Mh)) Hj Hk) as [_ [Hm|(m & H1 & H2)]]; [lia|].
      destruct Hb as [Hb _]. rewrite <- (Eq m) in H1. specialize (Hb m H1).
      destruct (IH q j) as (e & u & E & Nu); [|exact Hj|lia|].
      { apply (rd_trans K HD q B); [exists h; rewrite Eq; ring|exact DB]. }
      exists (Datatypes.S e), u. split; [|exact Nu]. cbn [Spec.rpow]. rewrite Eq, E. ring.
    + exists O, B. split; [cbn [Spec.rpow]; ring|]. intros D. exact (min_not_both B D X).
Qed.
Lemma deriv_pow k : deriv v (rpow h (Datatypes.S k)) == rmul (rmul (rconst (cnat K (Datatypes.S k))) (rpow h k)) (deriv v h).
Proof.
  induction k as [|k IH].
  - cbn [Spec.rpow]. rewrite (rderiv_leibniz K HK).
    assert (E1 : deriv v (r1 K) == r0) by (intros m; rewrite coef_deriv; unfold r1, rconst; cbn [Spec.coef r0]; destruct (meqb_spec [] ((v, exp m v + 1) :: mdrop v m)) as [B|B]; [specialize (B v); cbn [exp] in B; rewrite N.eqb_refl in B; lia|ring]).
    rewrite E1. assert (E2 : rconst (cnat K 1) == r1 K) by (unfold r1; apply (req_single K); [intros w; reflexivity|cbn; ring]). rewrite E2. ring.
  - cbn [Spec.rpow] in IH |- *. rewrite (rderiv_leibniz K HK), IH.
    assert (E2 : rconst (cnat K (Datatypes.S (Datatypes.S k))) == radd (r1 K) (rconst (cnat K (Datatypes.S k)))).
    { intros m. unfold radd, r1, rconst. rewrite (coef_app K HK). cbn [Spec.coef]. destruct (meqb [] m); cbn [cnat]; ring. }
    rewrite E2. ring.
Qed.
Lemma pow_div_deriv B k : rpow h (Datatypes.S k) %| B -> rpow h k %| deriv v B.
Proof.
  intros [q E]. apply (rdivides_proper K HD _ _ (reflexivity _) _ _ (rderiv_proper K HK v _ _ E)).
  exists (radd (rmul (deriv v q) h) (rmul q (rmul (rconst (cnat K (Datatypes.S k))) (deriv v h)))).
  rewrite (rderiv_leibniz K HK), deriv_pow. cbn [Spec.rpow]. ring.
Qed.
Lemma min_not_deriv c : c <> 0c -> ~ h %| rmul (rconst c) (deriv v h).
Proof.
  intros Nc [q E]. destruct min_deg as (n & Hn & Ln). assert (Hn' : deg_is K h v (n - 1 + 1)) by (replace (n - 1 + 1) with n by lia; exact Hn).
  pose proof (deriv_nz v h _ Hn') as Nd. assert (Nc' : ~ rconst c == r0) by (intros X; apply Nc, (rconst_inj K HD); rewrite X; symmetry; apply (rconst_0 K HD)).
  assert (NP : ~ rmul (rconst c) (deriv v h) == r0) by (intros X; apply (rintegral K HD HG) in X as [X|X]; [exact (Nc' X)|exact (Nd X)]).
  assert (Nq : ~ q == r0) by (intros X; apply NP; rewrite E, X; ring). destruct (deg_exists K HD q v) as [j Hj].
  pose proof (deg_is_mul K HD HG q h v j n Nq (div_nz h (proj1 Mh)) Hj Hn) as [_ [Hm|(m & H1 & H2)]]; [lia|].
  rewrite <- (E m) in H1. assert (L' : deg_le K (rmul (rconst c) (deriv v h)) v (0 + (n - 1))) by (apply (deg_le_mul K HD); [apply (deg_free K), (vfree_const K)|apply deriv_le, Hn']).
  specialize (L' m H1). lia.
Qed.
End Min.

(** ** the radical quotient F / gcd(F, F') has no square factor *)
Theorem sqf_part D A : is_gcd F (deriv v F) D -> F == rmul A D -> forall h, rmul h h %| A -> unit h.
Proof.
  intros (D1 & D2 & D3) EF h Hh. destruct (unit_dec h) as [U|U]; [exact U|]. exfalso.
  assert (DA : A %| F) by (exists D; rewrite EF; ring).
  assert (DhF : h %| F) by (apply (rd_trans K HD h A); [|exact DA]; apply (rd_trans K HD h (rmul h h)); [exists h; reflexivity|exact Hh]).
  apply (minimal_ex h DhF U). intros (p & Dp & Mp).
  assert (pp : rmul p p %| A) by (apply (rd_trans K HD _ (rmul h h)); [apply (rd_mul2 K HD); assumption|exact Hh]).
  destruct (valuation p Mp F (rd_refl K HD F)) as (e & u & E & Nu). destruct e as [|k].
  { apply Nu. apply (rd_trans K HD p F); [exact (proj1 Mp)|]. exists (r1 K). transitivity (rmul (rpow p 0) u); [cbn [Spec.rpow]; ring|]. rewrite <- E. ring. }
  assert (P1 : rpow p k %| D).
  { apply D3; [exists (rmul p u); rewrite E; cbn [Spec.rpow]; ring|]. apply (pow_div_deriv p F k). exists u. rewrite E. ring. }
  destruct P1 as [w Ew], pp as [q Eq]. apply Nu. exists (rmul q w).
  assert (Np : ~ rpow p (Datatypes.S k) == r0) by (intros X; apply NF; rewrite E, X; ring).
  apply (rcancel K HD HG _ _ (rpow p (Datatypes.S k)) Np). transitivity F; [rewrite E; ring|]. rewrite EF, Eq, Ew. cbn [Spec.rpow]. ring.
Qed.
(** if the gcd of F and F' is not a unit then F is not squarefree *)
Theorem sqf_conv D : is_gcd F (deriv v F) D -> (forall h, rmul h h %| F -> unit h) -> unit D.
Proof.
  intros (D1 & D2 & D3) SQ. destruct (unit_dec D) as [U|U]; [exact U|]. exfalso. apply (minimal_ex D D1 U). intros (p & Dp & Mp).
  destruct (valuation p Mp F (rd_refl K HD F)) as (e & u & E & Nu). destruct e as [|[|k]].
  - apply Nu. apply (rd_trans K HD p F); [exact (proj1 Mp)|]. exists (r1 K). transitivity (rmul (rpow p 0) u); [cbn [Spec.rpow]; ring|]. rewrite <- E. ring.
  - assert (X : p %| rmul u (rmul (rconst (cnat K 1)) (deriv v p))).
    { assert (Y : p %| deriv v F) by (apply (rd_trans K HD p D); assumption).
      destruct Y as [q Eq]. exists (rsub K q (deriv v u)).
      rewrite (rderiv_proper K HK v _ _ E), (rderiv_leibniz K HK), (deriv_pow p 0) in Eq. cbn [Spec.rpow] in Eq.
      transitivity (rsub K (radd (rmul (rmul (rmul (rconst (cnat K 1)) (r1 K)) (deriv v p)) u) (rmul (rmul p (r1 K)) (deriv v u))) (rmul p (deriv v u))); [ring|].
      rewrite Eq. ring. }
    apply (min_not_deriv p Mp (cnat K 1)); [apply char0|]. apply (min_prime p Mp u); [exact X|exact Nu].
  - apply Mp. apply SQ. exists (rmul (rpow p k) u). rewrite E. cbn [Spec.rpow]. ring.
Qed.
End Prim.

(** ** the quotients of consecutive steps divide each other *)
Theorem sqf_chain v F D A E B : ~ D == r0 -> D %| deriv v F -> F == rmul A D -> is_gcd D (deriv v D) E -> D == rmul B E -> B %| A.
Proof.
  intros ND D2 EF (E1 & [W EW] & E3) ED.
  assert (NE : ~ E == r0) by (intros X; apply ND; rewrite ED, X; ring).
  assert (X : rmul E B %| rmul E (rmul W A)).
  { assert (Y : D %| rmul A (deriv v D)).
    { destruct D2 as [q Eq]. exists (rsub K q (deriv v A)). rewrite (rderiv_proper K HK v _ _ EF), (rderiv_leibniz K HK) in Eq.
      transitivity (rsub K (radd (rmul (deriv v A) D) (rmul A (deriv v D))) (rmul (deriv v A) D)); [ring|]. rewrite Eq. ring. }
    destruct Y as [q Eq]. exists q. transitivity (rmul A (deriv v D)); [rewrite EW; ring|]. rewrite Eq, ED. ring. }
  apply (rd_cancel K HD HG _ _ _ NE) in X. apply (euclid K HD HG B W A); [|exact X].
  intros d [b Eb] [w Ew]. assert (Y : rmul E d %| rmul E (r1 K)).
  { apply (rdivides_proper K HD _ _ (reflexivity _) _ E); [ring|]. apply E3; [exists b; rewrite ED, Eb; ring|exists w; rewrite EW, Ew; ring]. }
  apply (rd_cancel K HD HG _ _ _ NE Y).
Qed.
End SM.
