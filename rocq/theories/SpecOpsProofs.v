(** * Facts about the specification operations of SpecOps.v. *)
From Coq Require Import Ring Setoid Morphisms.
From Verif Require Import Prelude Coef Spec SpecProofs SpecOps.
Local Open Scope N_scope.

Lemma exp_mdrop v m w : exp (mdrop v m) w = if N.eqb w v then 0 else exp m w.
Proof. apply exp_filter. Qed.
Lemma mdrop_app v m1 m2 : mdrop v (m1 ++ m2) = mdrop v m1 ++ mdrop v m2.
Proof. apply filter_app. Qed.
#[global] Instance mdrop_proper v : Proper (meq ==> meq) (mdrop v).
Proof. intros a b H w. rewrite !exp_mdrop, (H w). reflexivity. Qed.

Section Ring.
Context {C : Type} (K : coefs C) (HK : ring_ok K).
Add Ring Kring : (ring_laws K HK).
Add Ring Rring : (rring K HK) (setoid (req_equiv K) (rring_ext K HK)).
Notation "0c" := (c0 K). Notation "1c" := (c1 K).
Infix "+c" := (cadd K) (at level 50, left associativity).
Infix "*c" := (cmul K) (at level 40, left associativity).
Notation coef := (coef K). Notation req := (req K).
Notation rmul := (rmul K).

Lemma c0_dec (c : C) : {c = 0c} + {c <> 0c}.
Proof. destruct (ceqb_spec K HK c 0c); [left|right]; assumption. Qed.

(** ** Supports *)
Lemma coef_supp p m : coef p m <> 0c -> exists m', In m' (map fst p) /\ meq m' m.
Proof.
  induction p as [|[m' c] p IH]; simpl; [congruence|].
  destruct (meqb_spec m' m) as [e|e].
  - intros _. exists m'. auto.
  - intros H. destruct (IH H) as (m2 & H1 & H2). exists m2. auto.
Qed.
Lemma rsum_filter f (P : smono -> bool) p : (forall m, P m = false -> f m = 0c) ->
  rsum K f (filter (fun t => P (fst t)) p) = rsum K f p.
Proof.
  intros H. induction p as [|[m c] p IH]; simpl; [reflexivity|]. destruct (P m) eqn:E; simpl; rewrite IH; [ring|].
  rewrite (H m E). ring.
Qed.
Lemma coef_filter (P : smono -> bool) (HP : Proper (meq ==> eq) P) p m :
  coef (filter (fun t => P (fst t)) p) m = if P m then coef p m else 0c.
Proof.
  induction p as [|[m' c] p IH]; simpl; [destruct (P m); reflexivity|].
  destruct (meqb_spec m' m) as [e|e].
  - rewrite (HP m' m e). destruct (P m) eqn:E; [|exact IH]. simpl. destruct (meqb_spec m' m); [|contradiction].
    rewrite IH. reflexivity.
  - destruct (P m'); [|exact IH]. simpl. destruct (meqb_spec m' m); [contradiction|]. exact IH.
Qed.
Lemma rsum_ex f (Hf : Proper (meq ==> eq) f) p : rsum K f p <> 0c ->
  exists m, coef p m <> 0c /\ f m <> 0c.
Proof.
  intros H.
  destruct (existsb (fun m => negb (is0 K (coef p m)) && negb (is0 K (f m))) (map fst p)) eqn:E.
  - apply existsb_exists in E as (m & _ & E). apply andb_true_iff in E as [E1 E2]. exists m. unfold is0 in *.
    destruct (ceqb_spec K HK (coef p m) 0c), (ceqb_spec K HK (f m) 0c); try discriminate. auto.
  - exfalso. apply H.
    rewrite <- (rsum_filter f (fun m => negb (is0 K (f m)))).
    2:{ intros m. unfold is0. destruct (ceqb_spec K HK (f m) 0c); [auto|discriminate]. }
    apply (rsum_zero K HK f Hf). intros m.
    rewrite (coef_filter (fun m => negb (is0 K (f m)))).
    2:{ intros a b Hab. rewrite (Hf a b Hab). reflexivity. }
    destruct (is0 K (f m)) eqn:E0; cbn [negb]; [reflexivity|].
    destruct (c0_dec (coef p m)) as [Z|Z]; [exact Z|]. exfalso.
    destruct (coef_supp p m Z) as (m' & Hin & Hm).
    assert (T : existsb (fun m => negb (is0 K (coef p m)) && negb (is0 K (f m))) (map fst p) = true); [|congruence].
    apply existsb_exists. exists m'. split; [exact Hin|]. rewrite (coef_proper K HK p m' m Hm), (Hf m' m Hm), E0.
    unfold is0. destruct (ceqb_spec K HK (coef p m) 0c); [contradiction|reflexivity].
Qed.
Lemma coef_mul_supp p q m : coef (rmul p q) m <> 0c ->
  exists m1 m2, coef p m1 <> 0c /\ coef q m2 <> 0c /\ meq (m1 ++ m2) m.
Proof.
  rewrite (coef_rmul K HK). intros H. apply rsum_ex in H as (m1 & H1 & H).
  - apply rsum_ex in H as (m2 & H2 & H).
    + exists m1, m2. split; [exact H1|]. split; [exact H2|]. unfold delta in H.
      destruct (meqb_spec (m1 ++ m2) m) as [e|e]; [exact e|congruence].
    + intros a b Hab. apply (delta_proper K). rewrite Hab. reflexivity.
  - intros a b Hab. apply rsum_ext. intros. apply (delta_proper K). rewrite Hab. reflexivity.
Qed.
Lemma coef_add_supp p q m : coef (radd p q) m <> 0c -> coef p m <> 0c \/ coef q m <> 0c.
Proof.
  unfold radd. rewrite (coef_app K HK). intros H. destruct (c0_dec (coef p m)) as [E|E]; [|auto].
  right. intros E'. apply H. rewrite E, E'. ring.
Qed.
Lemma coef_opp_supp p m : coef (ropp K p) m <> 0c -> coef p m <> 0c.
Proof. rewrite (coef_opp K HK). intros H E. apply H. rewrite E. ring. Qed.
Lemma coef_sub_supp p q m : coef (rsub K p q) m <> 0c -> coef p m <> 0c \/ coef q m <> 0c.
Proof.
  intros H. apply coef_add_supp in H as [H|H]; [auto|]. right. apply coef_opp_supp, H.
Qed.

(** ** Linear extensions *)
Lemma rlin_app f p q : rlin K f (p ++ q) = rlin K f p ++ rlin K f q.
Proof. apply flat_map_app. Qed.
Lemma rlin_cons f m c p : rlin K f ((m, c) :: p) = map (fun u => (fst u, c *c snd u)) (f m) ++ rlin K f p.
Proof. reflexivity. Qed.
Lemma coef_scale c p m : coef (rscale K c p) m = c *c coef p m.
Proof.
  induction p as [|[m' a] p IH]; simpl; [ring|]. destruct (meqb m' m); rewrite IH; ring.
Qed.
Lemma coef_rlin f p m : coef (rlin K f p) m = rsum K (fun m' => coef (f m') m) p.
Proof.
  induction p as [|[m' c] p IH]; simpl; [reflexivity|]. unfold rlin in *. simpl. rewrite (coef_app K HK), IH.
  f_equal. apply (coef_scale c (f m')).
Qed.
Lemma rlin_req f (Hf : Proper (meq ==> req) f) p q : req p q -> req (rlin K f p) (rlin K f q).
Proof.
  intros H m. rewrite !coef_rlin. apply (rsum_req K HK); [|exact H]. intros a b Hab. apply (Hf a b Hab).
Qed.
Lemma rlin_ext f g p : (forall m c, In (m, c) p -> req (f m) (g m)) -> req (rlin K f p) (rlin K g p).
Proof. intros H m. rewrite !coef_rlin. apply rsum_ext. intros m' c Hin. apply (H m' c Hin). Qed.
Lemma rlin_id p : req (rlin K (fun m => rmono K m) p) p.
Proof.
  intros m. rewrite coef_rlin, (coef_rsum K HK). apply rsum_ext. intros m' c _. simpl. unfold delta.
  destruct (meqb m' m); ring.
Qed.
Lemma rsum_rlin g f p : rsum K g (rlin K f p) = rsum K (fun m => rsum K g (f m)) p.
Proof.
  induction p as [|[m c] p IH]; [reflexivity|]. rewrite rlin_cons, (rsum_app K HK), IH. simpl. f_equal.
  induction (f m) as [|[u a] r IHr]; simpl; [ring|]. rewrite IHr. ring.
Qed.

#[global] Instance rscale_proper : Proper (eq ==> req ==> req) (rscale K).
Proof. intros a b -> p q H m. rewrite !coef_scale, (H m). reflexivity. Qed.
Lemma rscale_mul c p : req (rscale K c p) (rmul (rconst c) p).
Proof.
  intros m. rewrite coef_scale, (coef_rmul K HK). simpl. rewrite (coef_rsum K HK). unfold delta. simpl. ring.
Qed.
Lemma rmono_mul m1 m2 : rmul (rmono K m1) (rmono K m2) = [(m1 ++ m2, 1c *c 1c)].
Proof. reflexivity. Qed.
Lemma rmono_app m1 m2 : req (rmono K (m1 ++ m2)) (rmul (rmono K m1) (rmono K m2)).
Proof. intros m. simpl. destruct (meqb (m1 ++ m2) m); ring. Qed.
#[global] Instance rmono_proper : Proper (meq ==> req) (rmono K).
Proof.
  intros a b H m. simpl. destruct (meqb_spec a m) as [e|e], (meqb_spec b m) as [e'|e']; try reflexivity; exfalso.
  - apply e'. rewrite <- H. exact e.
  - apply e. rewrite H. exact e'.
Qed.
Lemma req_single m1 m2 c1 c2 : meq m1 m2 -> c1 = c2 -> req [(m1, c1)] [(m2, c2)].
Proof.
  intros H -> m. simpl. destruct (meqb_spec m1 m) as [e|e], (meqb_spec m2 m) as [e'|e']; try reflexivity; exfalso.
  - apply e'. rewrite <- H. exact e.
  - apply e. rewrite H. exact e'.
Qed.

(** A multiplicative [f] extends to a ring homomorphism. *)
Lemma rlin_mul f (Hm : forall m1 m2, req (f (m1 ++ m2)) (rmul (f m1) (f m2))) p q :
  req (rlin K f (rmul p q)) (rmul (rlin K f p) (rlin K f q)).
Proof.
  intros m. rewrite (coef_rsum K HK), (coef_rsum K HK (rmul _ _)), (rsum_rmul K HK), !rsum_rlin, (rsum_rmul K HK).
  apply rsum_ext. intros m1 c1 _.
  transitivity (rsum K (fun m2 => rsum K (delta K m) (rmul (f m1) (f m2))) q).
  - apply rsum_ext. intros m2 c2 _. rewrite <- !(coef_rsum K HK). apply Hm.
  - transitivity (rsum K (fun m2 => rsum K (fun a => rsum K (fun b => delta K m (a ++ b)) (f m2)) (f m1)) q).
    + apply rsum_ext. intros m2 c2 _. apply (rsum_rmul K HK).
    + rewrite (rsum_swap K HK). apply rsum_ext. intros a c _. symmetry. apply rsum_rlin.
Qed.
(** A derivation on monomials extends to a derivation. *)
Lemma rlin_leibniz f (Hm : forall m1 m2, req (f (m1 ++ m2)) (radd (rmul (f m1) (rmono K m2)) (rmul (rmono K m1) (f m2)))) p q :
  req (rlin K f (rmul p q)) (radd (rmul (rlin K f p) q) (rmul p (rlin K f q))).
Proof.
  intros m. unfold radd. rewrite (coef_app K HK).
  rewrite !(coef_rsum K HK). rewrite rsum_rlin, !(rsum_rmul K HK), rsum_rlin.
  rewrite <- (rsum_plus K HK). apply rsum_ext. intros m1 c1 _.
  rewrite (rsum_swap K HK). rewrite rsum_rlin. rewrite <- (rsum_plus K HK). apply rsum_ext. intros m2 c2 _.
  rewrite <- (coef_rsum K HK), (Hm m1 m2 m). unfold radd. rewrite (coef_app K HK), !(coef_rmul K HK).
  f_equal.
  - apply rsum_ext. intros a c _. simpl. ring.
  - simpl. ring.
Qed.

(** ** Coefficients with respect to a variable *)
Lemma rcoeff_mono_proper v d : Proper (meq ==> req) (fun m => if N.eqb (exp m v) d then [(mdrop v m, 1c)] else []).
Proof.
  intros a b H. rewrite (H v). destruct (N.eqb (exp b v) d); [|reflexivity].
  apply req_single; [rewrite H; reflexivity|reflexivity].
Qed.
#[global] Instance rcoeff_proper v d : Proper (req ==> req) (rcoeff K v d).
Proof. intros p q H. apply rlin_req; [apply rcoeff_mono_proper|exact H]. Qed.
Lemma coef_rcoeff v d p m :
  coef (rcoeff K v d p) m = if N.eqb (exp m v) 0 then coef p ((v, d) :: mdrop v m) else 0c.
Proof.
  unfold rcoeff. rewrite coef_rlin. destruct (N.eqb_spec (exp m v) 0) as [Z|Z].
  - rewrite (coef_rsum K HK). apply rsum_ext. intros m' c _. unfold delta.
    destruct (N.eqb_spec (exp m' v) d) as [E|E]; simpl.
    + destruct (meqb_spec (mdrop v m') m) as [A|A], (meqb_spec m' ((v, d) :: mdrop v m)) as [B|B]; try ring; exfalso.
      * apply B. intros w. specialize (A w). rewrite exp_mdrop in A. simpl. rewrite exp_mdrop.
        destruct (N.eqb_spec w v) as [e0|n]; [subst w|].
        -- rewrite N.eqb_refl. lia.
        -- destruct (N.eqb_spec v w) as [e0|_]; [congruence|]. rewrite A. lia.
      * apply A. intros w. specialize (B w). simpl in B. rewrite exp_mdrop in *.
        destruct (N.eqb_spec w v) as [e0|n]; [subst w; lia|]. destruct (N.eqb_spec v w) as [e0|_]; [congruence|]. lia.
    + destruct (meqb_spec m' ((v, d) :: mdrop v m)) as [B|B]; [|ring]. exfalso. apply E. rewrite (B v). simpl.
      rewrite N.eqb_refl, exp_mdrop, N.eqb_refl. lia.
  - rewrite <- (rsum_0 K HK p). apply rsum_ext. intros m' c _.
    destruct (N.eqb_spec (exp m' v) d) as [E|E]; simpl; [|reflexivity].
    destruct (meqb_spec (mdrop v m') m) as [A|A]; [|reflexivity]. exfalso. apply Z. rewrite <- (A v), exp_mdrop, N.eqb_refl.
    reflexivity.
Qed.

(** sum over d < n *)
Fixpoint rbig (n : nat) (f : N -> rpoly C) : rpoly C :=
  match n with O => [] | S n' => radd (rbig n' f) (f (N.of_nat n')) end.
Lemma coef_rbig n f m : coef (rbig n f) m =
  (fix go n := match n with O => 0c | S n' => go n' +c coef (f (N.of_nat n')) m end) n.
Proof. induction n as [|n IH]; [reflexivity|]. simpl. unfold radd. rewrite (coef_app K HK), IH. reflexivity. Qed.
Lemma coef_shift p v d m :
  coef (rmul p (rmono K [(v, d)])) m = if d <=? exp m v then coef p ((v, exp m v - d) :: mdrop v m) else 0c.
Proof.
  rewrite (coef_rmul K HK). destruct (N.leb_spec d (exp m v)) as [L|L].
  - rewrite (coef_rsum K HK). apply rsum_ext. intros m' c _. simpl. unfold delta.
    destruct (meqb_spec (m' ++ [(v, d)]) m) as [A|A], (meqb_spec m' ((v, exp m v - d) :: mdrop v m)) as [B|B]; try ring; exfalso.
    + apply B. intros w. specialize (A w). rewrite exp_app in A. simpl in *. rewrite exp_mdrop.
      destruct (N.eqb_spec w v) as [e0|n]; [subst w|].
      * rewrite N.eqb_refl in *. lia.
      * destruct (N.eqb_spec v w) as [e0|_]; [congruence|]. lia.
    + apply A. intros w. specialize (B w). rewrite exp_app. simpl in *. rewrite exp_mdrop in B.
      destruct (N.eqb_spec w v) as [e0|n]; [subst w|].
      * rewrite N.eqb_refl in *. lia.
      * destruct (N.eqb_spec v w) as [e0|_]; [congruence|]. lia.
  - rewrite <- (rsum_0 K HK p). apply rsum_ext. intros m' c _. simpl. unfold delta.
    destruct (meqb_spec (m' ++ [(v, d)]) m) as [A|A]; [|ring]. exfalso. specialize (A v). rewrite exp_app in A. simpl in A.
    rewrite N.eqb_refl in A. lia.
Qed.
Lemma meq_split v m : meq ((v, exp m v) :: mdrop v m) m.
Proof.
  intros w. simpl. rewrite exp_mdrop. destruct (N.eqb_spec w v) as [e0|n]; [subst w; rewrite N.eqb_refl; lia|].
  destruct (N.eqb_spec v w) as [e0|_]; [congruence|]. lia.
Qed.
Lemma rcoeff_sum v n p : deg_lt K p v (N.of_nat n) ->
  req p (rbig n (fun d => rmul (rcoeff K v d p) (rmono K [(v, d)]))).
Proof.
  intros H m. rewrite coef_rbig.
  assert (G : forall k, (fix go n := match n with O => 0c | S n' => go n' +c coef (rmul (rcoeff K v (N.of_nat n') p) (rmono K [(v, N.of_nat n')])) m end) k
     = if exp m v <? N.of_nat k then coef p m else 0c).
  { induction k as [|k IH]; [simpl; destruct (N.ltb_spec (exp m v) 0); [lia|reflexivity]|].
    rewrite IH. rewrite coef_shift, coef_rcoeff. simpl exp. rewrite N.eqb_refl, exp_mdrop, N.eqb_refl.
    destruct (N.leb_spec (N.of_nat k) (exp m v)) as [L|L].
    - destruct (N.eqb_spec (exp m v - N.of_nat k + 0) 0) as [E|E].
      + destruct (N.ltb_spec (exp m v) (N.of_nat k)); [lia|]. destruct (N.ltb_spec (exp m v) (N.of_nat (Datatypes.S k))); [|lia].
        replace (coef p ((v, N.of_nat k) :: mdrop v ((v, exp m v - N.of_nat k) :: mdrop v m))) with (coef p m); [ring|].
        symmetry. apply (coef_proper K HK). intros w. simpl. rewrite N.eqb_refl. simpl. rewrite !exp_mdrop.
        destruct (N.eqb_spec w v) as [e0|n']; [subst w; rewrite N.eqb_refl; lia|].
        destruct (N.eqb_spec v w) as [e0|_]; [congruence|]. lia.
      + destruct (N.ltb_spec (exp m v) (N.of_nat k)); [lia|]. destruct (N.ltb_spec (exp m v) (N.of_nat (Datatypes.S k))); [lia|]. ring.
    - destruct (N.ltb_spec (exp m v) (N.of_nat k)); [|lia]. destruct (N.ltb_spec (exp m v) (N.of_nat (Datatypes.S k))); [|lia]. ring. }
  rewrite G. destruct (N.ltb_spec (exp m v) (N.of_nat n)) as [L|L]; [reflexivity|].
  destruct (c0_dec (coef p m)) as [E|E]; [exact E|]. specialize (H m E). lia.
Qed.

(** ** Degrees *)
#[global] Instance deg_le_proper : Proper (req ==> eq ==> eq ==> iff) (deg_le K).
Proof. intros p q H v v' <- d d' <-. unfold deg_le. split; intros G m Hm; apply G; [rewrite (H m)|rewrite <- (H m)]; exact Hm. Qed.
#[global] Instance deg_lt_proper : Proper (req ==> eq ==> eq ==> iff) (deg_lt K).
Proof. intros p q H v v' <- d d' <-. unfold deg_lt. split; intros G m Hm; apply G; [rewrite (H m)|rewrite <- (H m)]; exact Hm. Qed.
#[global] Instance deg_is_proper : Proper (req ==> eq ==> eq ==> iff) (deg_is K).
Proof.
  intros p q H v v' <- d d' <-. unfold deg_is. rewrite H.
  split; (intros [A [B|(m & B & B')]]; split; [exact A|left; exact B|exact A|right; exists m; split; [|exact B']]);
   [rewrite <- (H m)|rewrite (H m)]; exact B.
Qed.
Lemma deg_is_unique p v d d' : deg_is K p v d -> deg_is K p v d' -> d = d'.
Proof.
  intros [A [->|(m & B & B')]] [A' [->|(m' & C' & C'')]].
  - reflexivity.
  - specialize (A m' C'). lia.
  - specialize (A' m B). lia.
  - specialize (A m' C'). specialize (A' m B). lia.
Qed.

(** ** Substitution *)
Lemma exp_msub (rho : var -> option C) m w : exp (msub rho m) w = match rho w with None => exp m w | Some _ => 0 end.
Proof.
  induction m as [|[u e] m IH]; simpl; [destruct (rho w); reflexivity|].
  destruct (rho u) as [c|] eqn:E; simpl; rewrite IH.
  - destruct (N.eqb_spec u w) as [->|n]; [rewrite E; reflexivity|]. destruct (rho w); lia.
  - destruct (N.eqb_spec u w) as [->|n]; [rewrite E; reflexivity|]. destruct (rho w); lia.
Qed.
#[global] Instance msub_proper (rho : var -> option C) : Proper (meq ==> meq) (msub rho).
Proof. intros a b H w. rewrite !exp_msub, (H w). reflexivity. Qed.
#[global] Instance msubc_proper rho : Proper (meq ==> eq) (msubc K rho).
Proof. intros a b H. unfold msubc. apply (meval_proper K HK). exact H. Qed.
#[global] Instance rsubst_proper rho : Proper (req ==> req) (rsubst K rho).
Proof.
  intros p q H. apply rlin_req; [|exact H]. intros a b Hab. apply req_single; rewrite Hab; reflexivity.
Qed.
Lemma rsubst_mul rho p q : req (rsubst K rho (rmul p q)) (rmul (rsubst K rho p) (rsubst K rho q)).
Proof.
  apply rlin_mul. intros m1 m2. unfold rmul at 1. unfold Spec.rmul. simpl. apply req_single.
  - unfold msub. rewrite filter_app. reflexivity.
  - unfold msubc. apply (meval_app K HK).
Qed.
Lemma rsubst_add rho p q : rsubst K rho (radd p q) = radd (rsubst K rho p) (rsubst K rho q).
Proof. apply rlin_app. Qed.
Lemma reval_rsubst rho sg p :
  reval K sg (rsubst K rho p) = reval K (fun v => match rho v with Some c => c | None => sg v end) p.
Proof.
  rewrite !(reval_rsum K). unfold rsubst. rewrite rsum_rlin. apply rsum_ext. intros m c _. simpl.
  unfold msubc, msub. induction m as [|[u e] m IH]; simpl; [ring|]. destruct (rho u) as [a|]; simpl; rewrite <- IH.
  - ring.
  - assert (E : cpow K 1c (N.to_nat e) = 1c); [|rewrite E; ring]. induction (N.to_nat e) as [|n IHn]; simpl; [reflexivity|]. rewrite IHn. ring.
Qed.

(** ** Derivative *)
Lemma cnat_add n m : cnat K (n + m) = cnat K n +c cnat K m.
Proof. induction n as [|n IH]; simpl; [ring|]. rewrite IH. ring. Qed.
#[global] Instance rderiv_proper v : Proper (req ==> req) (rderiv K v).
Proof.
  intros p q H. apply rlin_req; [|exact H]. intros a b Hab. rewrite (Hab v). apply req_single; [|reflexivity].
  intros w. simpl. rewrite !exp_mdrop, (Hab w). reflexivity.
Qed.
Lemma rderiv_leibniz v p q : req (rderiv K v (rmul p q)) (radd (rmul (rderiv K v p) q) (rmul p (rderiv K v q))).
Proof.
  apply rlin_leibniz. intros m1 m2 m. unfold radd. simpl. rewrite !exp_app, N2Nat.inj_add, cnat_add, mdrop_app.
  assert (E : forall m1 m2, exp m1 v <> 0 -> meq ((v, exp m1 v + exp m2 v - 1) :: mdrop v m1 ++ mdrop v m2) ((v, exp m1 v - 1) :: mdrop v m1 ++ m2)).
  { intros a b Ha w. simpl. rewrite !exp_app, !exp_mdrop. destruct (N.eqb_spec w v) as [e0|n]; [subst w|].
    - rewrite N.eqb_refl. lia.
    - destruct (N.eqb_spec v w) as [e0|_]; [congruence|]. lia. }
  assert (E' : exp m2 v <> 0 -> meq ((v, exp m1 v + exp m2 v - 1) :: mdrop v m1 ++ mdrop v m2) (m1 ++ (v, exp m2 v - 1) :: mdrop v m2)).
  { intros Ha w. simpl. rewrite !exp_app. simpl. rewrite !exp_mdrop. destruct (N.eqb_spec w v) as [e0|n]; [subst w|].
    - rewrite N.eqb_refl. lia.
    - destruct (N.eqb_spec v w) as [e0|_]; [congruence|]. lia. }
  destruct (N.eq_dec (exp m1 v) 0) as [Z1|Z1], (N.eq_dec (exp m2 v) 0) as [Z2|Z2].
  - rewrite Z1, Z2. simpl. repeat match goal with |- context [if ?b then _ else _] => destruct b end; ring.
  - specialize (E' Z2). rewrite Z1 in *. simpl cnat.
    destruct (meqb_spec ((v, 0 + exp m2 v - 1) :: mdrop v m1 ++ mdrop v m2) m) as [A|A],
      (meqb_spec (m1 ++ (v, exp m2 v - 1) :: mdrop v m2) m) as [B|B];
     try (destruct (meqb _ _); ring); exfalso; [apply B; rewrite <- E'; exact A|apply A; rewrite E'; exact B].
  - specialize (E m1 m2 Z1). rewrite Z2 in *. simpl cnat.
    destruct (meqb_spec ((v, exp m1 v + 0 - 1) :: mdrop v m1 ++ mdrop v m2) m) as [A|A],
      (meqb_spec ((v, exp m1 v - 1) :: mdrop v m1 ++ m2) m) as [B|B];
     try (destruct (meqb _ _); ring); exfalso; [apply B; rewrite <- E; exact A|apply A; rewrite E; exact B].
  - specialize (E m1 m2 Z1). specialize (E' Z2).
    destruct (meqb_spec ((v, exp m1 v + exp m2 v - 1) :: mdrop v m1 ++ mdrop v m2) m) as [A|A],
      (meqb_spec ((v, exp m1 v - 1) :: mdrop v m1 ++ m2) m) as [B|B],
      (meqb_spec (m1 ++ (v, exp m2 v - 1) :: mdrop v m2) m) as [D|D]; try ring; exfalso;
     first [apply B; rewrite <- E; exact A|apply A; rewrite E; exact B|apply D; rewrite <- E'; exact A|apply A; rewrite E'; exact D].
Qed.
Lemma rderiv_add v p q : rderiv K v (radd p q) = radd (rderiv K v p) (rderiv K v q).
Proof. apply rlin_app. Qed.
End Ring.
