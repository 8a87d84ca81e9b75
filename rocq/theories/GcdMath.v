(** * Mathematics of content, primitive part and gcd with respect to one variable, on the specification polynomials. *)
From Coq Require Import Ring_theory Ring Setoid Morphisms Lia Arith.
From Verif Require Import Prelude Coef Spec SpecProofs SpecOps SpecOpsProofs GcdDom GcdPoly.
Local Open Scope N_scope.

Section GM.
Context {C : Type} (K : coefs C) (HD : domain_ok K) (HG : cgcd_ok K).
Let HK : ring_ok K := domain_ring K HD.
Local Existing Instance HK.
Add Ring Kring : (ring_laws K HK).
Add Ring Rring : (rring K HK) (setoid (req_equiv K) (rring_ext K HK)).
Notation "0c" := (c0 K). Notation "1c" := (c1 K).
Notation coef := (coef K). Notation req := (req K).
Notation rmul := (rmul K).
Local Infix "==" := req (at level 70).
Local Notation "d %| p" := (rdivides K d p) (at level 70).
Local Notation is_gcd := (is_gcd K).
Local Notation vfree := (vfree K).
Local Notation RE := (req_equiv K). Local Notation RX := (rring_ext K HK). Local Notation RT := (rring K HK).
Local Notation Z0 := (rzero_dec K HD).

(** ** divisibility *)
#[global] Instance rdivides_proper : Proper (req ==> req ==> iff) (rdivides K).
Proof. intros d d' E p p' E'. split; intros [q H]; exists q; [rewrite <- E, <- E'|rewrite E, E']; exact H. Qed.
Lemma rd_refl p : p %| p. Proof. exists (r1 K). ring. Qed.
Lemma rd_trans a b c : a %| b -> b %| c -> a %| c.
Proof. intros [q H] [q' H']. exists (rmul q' q). rewrite H', H. ring. Qed.
Lemma rd_0 a : a %| r0. Proof. exists r0. ring. Qed.
Lemma rd_1 a : r1 K %| a. Proof. exists a. ring. Qed.
Lemma rd_add d a b : d %| a -> d %| b -> d %| radd a b.
Proof. intros [q H] [q' H']. exists (radd q q'). rewrite H', H. ring. Qed.
Lemma rd_opp d a : d %| a -> d %| ropp K a.
Proof. intros [q H]. exists (ropp K q). rewrite H. ring. Qed.
Lemma rd_sub d a b : d %| a -> d %| b -> d %| rsub K a b.
Proof. intros [q H] [q' H']. exists (rsub K q q'). rewrite H', H. ring. Qed.
Lemma rd_mull d a b : d %| a -> d %| rmul b a.
Proof. intros [q H]. exists (rmul b q). rewrite H. ring. Qed.
Lemma rd_mulr d a b : d %| a -> d %| rmul a b.
Proof. intros [q H]. exists (rmul b q). rewrite H. ring. Qed.
Lemma rd_mul2 a b c d : a %| b -> c %| d -> rmul a c %| rmul b d.
Proof. intros [q H] [q' H']. exists (rmul q q'). rewrite H', H. ring. Qed.
Lemma rd_0_inv p : r0 %| p -> p == r0.
Proof. intros [q E]. rewrite E. ring. Qed.
Lemma rd_nz d p : d %| p -> ~ p == r0 -> ~ d == r0.
Proof. intros D N E. apply N, rd_0_inv. rewrite <- E. exact D. Qed.
Lemma rd_cancel c a b : ~ c == r0 -> rmul c a %| rmul c b -> a %| b.
Proof. intros N [q H]. exists q. apply (rcancel K HD HG b (rmul q a) c N). transitivity (rmul c b); [ring|]. rewrite H. ring. Qed.

(** ** gcd *)
#[global] Instance is_gcd_proper : Proper (req ==> req ==> req ==> iff) is_gcd.
Proof.
  intros a a' Ea b b' Eb g g' Eg. unfold GcdPoly.is_gcd. rewrite Ea, Eb, Eg.
  split; intros [H1 [H2 H3]]; (split; [exact H1|]); (split; [exact H2|]); intros d D1 D2.
  - rewrite <- Eg. apply H3; [rewrite Ea|rewrite Eb]; assumption.
  - rewrite Eg. apply H3; [rewrite <- Ea|rewrite <- Eb]; assumption.
Qed.
Lemma is_gcd_comm a b g : is_gcd a b g -> is_gcd b a g.
Proof. intros [H1 [H2 H3]]. split; [exact H2|]. split; [exact H1|]. auto. Qed.
Lemma is_gcd_0_l b : is_gcd r0 b b.
Proof. split; [apply rd_0|]. split; [apply rd_refl|]. auto. Qed.
Lemma is_gcd_0_r a : is_gcd a r0 a.
Proof. split; [apply rd_refl|]. split; [apply rd_0|]. auto. Qed.
Lemma is_gcd_nz a b g : is_gcd a b g -> ~ a == r0 -> ~ g == r0.
Proof. intros [H1 _] N. apply (rd_nz g a H1 N). Qed.
Lemma is_gcd_assoc a b c g h : is_gcd a b g -> is_gcd g c h -> forall d, d %| a -> d %| b -> d %| c -> d %| h.
Proof. intros [_ [_ U]] [_ [_ U']] d D1 D2 D3. auto. Qed.
Lemma is_gcd_mul a b g c : is_gcd a b g -> is_gcd (rmul c a) (rmul c b) (rmul c g).
Proof.
  intros [H1 [H2 U]]. split; [apply rd_mul2; [apply rd_refl|exact H1]|]. split; [apply rd_mul2; [apply rd_refl|exact H2]|].
  destruct (Z0 c) as [E|N]; [intros d _ _; rewrite E; apply (rd_trans _ r0); [apply rd_0|exists r0; ring]|].
  destruct (gcd_exists K HD HG (rmul c a) (rmul c b)) as [h [G1 [G2 UH]]].
  assert (CH : c %| h) by (apply UH; [apply (rd_mulr c c a)|apply (rd_mulr c c b)]; apply rd_refl).
  destruct CH as [h' Eh]. assert (Eh2 : h == rmul c h') by (rewrite Eh; ring).
  assert (h' %| g) as DD by (apply U; apply (rd_cancel c); auto; rewrite <- Eh2; assumption).
  intros d D1 D2. apply (rd_trans _ h); [apply UH; assumption|]. rewrite Eh2. apply rd_mul2; [apply rd_refl|exact DD].
Qed.
Definition coprime a b := forall d, d %| a -> d %| b -> d %| r1 K.
Lemma euclid h a b : coprime h a -> h %| rmul a b -> h %| b.
Proof.
  intros CP D. assert (G : is_gcd h a (r1 K)) by (split; [apply rd_1|split; [apply rd_1|exact CP]]).
  apply (is_gcd_mul _ _ _ b) in G. destruct G as [_ [_ U]]. enough (h %| rmul b (r1 K)) as E.
  { apply (rd_trans _ _ _ E). exists (r1 K). ring. }
  apply U; [apply rd_mull, rd_refl|]. apply (rd_trans _ _ _ D). exists (r1 K). ring.
Qed.

(** ** degrees *)
Lemma deg_lt_le p v d : deg_lt K p v (d + 1) <-> deg_le K p v d.
Proof. split; intros H m Hm; specialize (H m Hm); lia. Qed.
Lemma deg_exists p v : exists d, deg_is K p v d.
Proof.
  destruct (deg_bound K p v) as [n H]. revert p H. induction n as [|n IH]; intros p H.
  - exists 0. split; [intros m Hm; specialize (H m Hm); lia|auto].
  - destruct (Z0 (rcoeff K v (N.of_nat n) p)) as [E|N].
    + apply IH. intros m Hm. pose proof (H m Hm) as L. destruct (N.eq_dec (exp m v) (N.of_nat n)) as [X|X]; [|lia]. exfalso.
      specialize (E (mdrop v m)). rewrite (coef_rcoeff K HK), exp_mdrop, N.eqb_refl in E. cbn [N.eqb Spec.coef r0] in E.
      apply Hm. rewrite <- E. apply (coef_proper K HK). rewrite <- X. intros w. rewrite <- (meq_split v m w) at 1.
      cbn [exp]. rewrite !exp_mdrop. destruct (N.eqb_spec w v) as [->|]; reflexivity.
    + exists (N.of_nat n). split; [apply deg_lt_le; replace (N.of_nat n + 1) with (N.of_nat (S n)) by lia; exact H|]. right.
      destruct (not_zero_coef K HD _ N) as [m Hm]. rewrite (coef_rcoeff K HK) in Hm. destruct (N.eqb_spec (exp m v) 0) as [E|]; [|contradiction].
      exists ((v, N.of_nat n) :: mdrop v m). split; [exact Hm|]. cbn [exp]. rewrite N.eqb_refl, exp_mdrop, N.eqb_refl. lia.
Qed.
Lemma deg_le_add p q v d : deg_le K p v d -> deg_le K q v d -> deg_le K (radd p q) v d.
Proof. intros H H' m Hm. apply (coef_add_supp K HK) in Hm as [Hm|Hm]; auto. Qed.
Lemma deg_le_mul p q v a b : deg_le K p v a -> deg_le K q v b -> deg_le K (rmul p q) v (a + b).
Proof.
  intros H H' m Hm. apply (coef_mul_supp K HK) in Hm as [m1 [m2 [N1 [N2 E]]]]. rewrite <- (E v), exp_app.
  specialize (H _ N1). specialize (H' _ N2). lia.
Qed.
Lemma deg_le_weak p v a b : a <= b -> deg_le K p v a -> deg_le K p v b.
Proof. intros L H m Hm. specialize (H m Hm). lia. Qed.
Lemma deg_free p v : vfree v p <-> deg_le K p v 0.
Proof. split; intros H m Hm; specialize (H m Hm); lia. Qed.

Lemma deg_is_mul p q v a b : ~ p == r0 -> ~ q == r0 -> deg_is K p v a -> deg_is K q v b -> deg_is K (rmul p q) v (a + b).
Proof.
  intros Np Nq [Lp Tp] [Lq Tq]. split; [apply deg_le_mul; assumption|]. right.
  (* leading decompositions over the polynomials free of v *)
  pose proof (gdom_vfree K HD HG v) as GV. pose proof (vfree_uniq K HD v) as UQ.
  assert (LD : forall p a, ~ p == r0 -> deg_le K p v a -> (a = 0 \/ exists m, coef p m <> 0c /\ exp m v = a) ->
     exists p1 c, deg_lt K p1 v a /\ vfree v c /\ ~ c == r0 /\ p == radd p1 (rmul c (pw (r1 K) rmul (rvar K v) (N.to_nat a)))).
  { clear p q a b Np Nq Lp Tp Lq Tq. intros p a Np Lp Tp. apply deg_lt_le in Lp. replace (a + 1) with (N.of_nat (S (N.to_nat a))) in Lp by lia.
    apply (D_deg K HD) in Lp. destruct Lp as [p1 [c [H1 [Hc E]]]]. exists p1, c. apply (D_deg K HD) in H1. rewrite N2Nat.id in H1.
    split; [exact H1|]. split; [exact Hc|]. split; [|exact E]. intros Zc.
    assert (p == p1) as Ep by (rewrite E, Zc; ring). destruct Tp as [->|[m [Hm He]]].
    - apply Np. rewrite Ep. intros m. destruct (c0_dec K HK (coef p1 m)) as [X|X]; [exact X|]. specialize (H1 m X). lia.
    - rewrite (Ep m) in Hm. specialize (H1 m Hm). lia. }
  destruct (LD p a Np Lp Tp) as [p1 [c [H1 [Hc [Nc Ep]]]]]. destruct (LD q b Nq Lq Tq) as [q1 [e [H2 [He [Ne Eq]]]]]. clear LD.
  destruct (not_zero_coef K HD (rmul c e)) as [m Hm]. { intros X. apply (rintegral K HD HG) in X as [X|X]; contradiction. }
  assert (Fm : exp m v = 0) by (apply (vfree_mul K HD v c e Hc He m Hm)).
  exists ((v, a + b) :: mdrop v m). cbn [exp]. rewrite N.eqb_refl, exp_mdrop, N.eqb_refl. split; [|lia].
  assert (E : rmul p q == radd (radd (rmul p1 q) (rmul (rmul c (pw (r1 K) rmul (rvar K v) (N.to_nat a))) q1)) (rmul (rmul c e) (pw (r1 K) rmul (rvar K v) (N.to_nat (a + b))))).
  { rewrite N2Nat.inj_add, (pw_add _ _ _ _ _ _ _ RE RX RT).
    transitivity (rmul (radd p1 (rmul c (pw (r1 K) rmul (rvar K v) (N.to_nat a)))) q); [rewrite <- Ep; reflexivity|].
    transitivity (radd (rmul p1 q) (rmul (rmul c (pw (r1 K) rmul (rvar K v) (N.to_nat a))) (radd q1 (rmul e (pw (r1 K) rmul (rvar K v) (N.to_nat b)))))); [|ring].
    rewrite <- Eq. ring. }
  rewrite (E _). unfold radd at 1. rewrite (coef_app K HK).
  assert (LT : deg_lt K (radd (rmul p1 q) (rmul (rmul c (pw (r1 K) rmul (rvar K v) (N.to_nat a))) q1)) v (a + b)).
  { intros m' Hm'. apply (coef_add_supp K HK) in Hm' as [X|X]; apply (coef_mul_supp K HK) in X as [m1 [m2 [N1 [N2 X]]]]; rewrite <- (X v), exp_app.
    - specialize (H1 _ N1). specialize (Lq _ N2). lia.
    - specialize (H2 _ N2). assert (exp m1 v <= a); [|lia].
      apply (coef_mul_supp K HK) in N1 as [n1 [n2 [M1 [M2 Y]]]]. rewrite <- (Y v), exp_app, (Hc _ M1).
      rewrite (pw_mono K HD v _ _) in M2. cbn [Spec.coef rmono] in M2. destruct (meqb_spec [(v, N.of_nat (N.to_nat a))] n2) as [W|W]; [|contradiction].
      rewrite <- (W v). cbn [exp]. rewrite N.eqb_refl. lia. }
  rewrite (coef_pw K HD). cbn [exp]. rewrite N.eqb_refl, exp_mdrop, N.eqb_refl, N2Nat.id, N.add_0_r, N.leb_refl, N.sub_diag.
  match goal with |- cadd K (coef ?X ?mm) _ <> _ => destruct (c0_dec K HK (coef X mm)) as [W|W] end.
  - rewrite W. intros F. apply Hm. rewrite <- F. transitivity (coef (rmul c e) ((v, 0) :: mdrop v ((v, a + b) :: mdrop v m))); [|ring].
    apply (coef_proper K HK). intros w. rewrite <- (meq_split v m w) at 1. rewrite Fm. cbn [exp]. f_equal. rewrite !exp_mdrop.
    destruct (N.eqb_spec w v) as [->|n]; [reflexivity|]. cbn [exp]. rewrite exp_mdrop. destruct (N.eqb_spec v w); [congruence|].
    destruct (N.eqb_spec w v); [congruence|]. lia.
  - exfalso. specialize (LT _ W). cbn [exp] in LT. rewrite N.eqb_refl in LT. lia.
Qed.

(** ** content with respect to v *)
Definition is_cont (v : var) (p c : rpoly C) : Prop := vfree v c /\ c %| p /\ forall d, vfree v d -> d %| p -> d %| c.
Definition is_prim (v : var) (p : rpoly C) : Prop := forall d, vfree v d -> d %| p -> d %| r1 K.

#[global] Instance is_cont_proper v : Proper (req ==> req ==> iff) (is_cont v).
Proof.
  intros p p' E c c' E'. unfold is_cont. rewrite E, E'.
  split; intros [H1 [H2 H3]]; (split; [exact H1|]); (split; [exact H2|]); intros d F D.
  - rewrite <- E'. apply H3; [exact F|]. rewrite E. exact D.
  - rewrite E'. apply H3; [exact F|]. rewrite <- E. exact D.
Qed.

Local Notation dvdA v := (dvd rmul req (vfree v)).
Local Notation dvdB v := (dvd rmul req (B (@r0 C) (r1 K) (@radd C) rmul req (vfree v) (rvar K v))).
Lemma dvdB_iff v d p : dvdB v d p <-> d %| p.
Proof. split; [intros [q [_ E]]; exists q; exact E|]. intros [q E]. exists q. split; [apply (B_all K HD)|exact E]. Qed.
Lemma dvdA_iff v d p : vfree v p -> dvdA v d p <-> d %| p.
Proof.
  intros F. split; [intros [q [_ E]]; exists q; exact E|]. intros [q E]. destruct (Z0 p) as [Zp|Np].
  - exists r0. split; [apply vfree_0|]. rewrite Zp. ring.
  - exists q. split; [apply (free_div' K HD HG v p q d); assumption|exact E].
Qed.
Local Notation iscontD v := (iscont (@r0 C) (r1 K) (@radd C) rmul req (vfree v) (rvar K v)).
Local Notation primD v := (prim (@r0 C) (r1 K) (@radd C) rmul req (vfree v) (rvar K v)).
Lemma is_cont_D v p c : is_cont v p c <-> iscontD v p c.
Proof.
  split; intros [H1 [H2 H3]]; (split; [exact H1|]).
  - split; [apply dvdB_iff, H2|]. intros d F D. apply dvdA_iff; [exact H1|]. apply H3; [exact F|]. apply dvdB_iff in D. exact D.
  - split; [apply dvdB_iff in H2; exact H2|]. intros d F D. apply (dvdA_iff v d c H1). apply H3; [exact F|]. apply dvdB_iff, D.
Qed.
Lemma is_prim_D v p : is_prim v p <-> primD v p.
Proof.
  split; intros H d F D.
  - apply dvdA_iff; [apply vfree_const|]. apply H; [exact F|]. apply dvdB_iff in D. exact D.
  - apply (dvdA_iff v d (r1 K)); [apply vfree_const|]. apply H; [exact F|]. apply dvdB_iff, D.
Qed.
Lemma prim_dvd v s p q : vfree v s -> ~ s == r0 -> is_prim v q -> q %| rmul s p -> q %| p.
Proof.
  intros Fs Ns P D. apply (dvdB_iff v). apply (GcdDom.prim_dvd _ _ _ _ _ _ _ RE RX RT Z0 (vfree v) (gdom_vfree K HD HG v) (rvar K v) (vfree_uniq K HD v) s); auto; try apply (B_all K HD).
  - apply is_prim_D, P.
  - apply dvdB_iff, D.
Qed.
Lemma prim_of_dvd v p q : is_prim v p -> q %| p -> is_prim v q.
Proof. intros H Dq d Hd Dd. apply H; [exact Hd|]. apply (rd_trans d q); assumption. Qed.
Lemma cont_exists v p : exists c, is_cont v p c.
Proof.
  destruct (GcdDom.cont_exists _ _ _ _ _ _ _ RE RX RT Z0 (vfree v) (gdom_vfree K HD HG v) (rvar K v) (vfree_uniq K HD v) p (B_all K HD v p)) as [c H].
  exists c. apply is_cont_D, H.
Qed.
Lemma gauss v p q cp cq : is_cont v p cp -> is_cont v q cq -> is_cont v (rmul p q) (rmul cp cq).
Proof.
  rewrite !is_cont_D. apply (GcdDom.gauss _ _ _ _ _ _ _ RE RX RT Z0 (vfree v) (gdom_vfree K HD HG v) (rvar K v) (vfree_uniq K HD v)); apply (B_all K HD).
Qed.
(** the quotient by the content is primitive *)
Lemma pp_prim v p c q : ~ p == r0 -> is_cont v p c -> p == rmul q c -> is_prim v q.
Proof.
  intros Np [Fc [Dc U]] E d Fd Dd. assert (Nc : ~ c == r0) by (intros X; apply Np; rewrite E, X; ring).
  assert (rmul d c %| c) as [e He].
  { apply U; [apply (vfree_mul K HD); assumption|]. rewrite E. apply rd_mul2; [exact Dd|apply rd_refl]. }
  exists e. apply (rcancel K HD HG (r1 K) (rmul e d) c Nc). transitivity c; [ring|]. rewrite He at 1. ring.
Qed.

(** gcd of two polynomials from contents and primitive parts *)
Theorem gcd_from_pp v F G cF cG F' G' cg P : ~ F == r0 -> ~ G == r0 ->
  is_cont v F cF -> is_cont v G cG -> F == rmul F' cF -> G == rmul G' cG -> is_gcd cF cG cg ->
  P %| F' -> P %| G' -> (forall D d, D %| F' -> D %| G' -> deg_is K D v d -> deg_le K P v d -> deg_is K P v d) ->
  is_gcd F G (rmul P cg).
Proof.
  intros NF NG HcF HcG EF EG [K1 [K2 UK]] PF PG DEG.
  assert (PF' : is_prim v F') by (apply (pp_prim v F cF); assumption). assert (PG' : is_prim v G') by (apply (pp_prim v G cG); assumption).
  assert (NF' : ~ F' == r0) by (intros X; apply NF; rewrite EF, X; ring). assert (NG' : ~ G' == r0) by (intros X; apply NG; rewrite EG, X; ring).
  assert (NcF : ~ cF == r0) by (intros X; apply NF; rewrite EF, X; ring). assert (NcG : ~ cG == r0) by (intros X; apply NG; rewrite EG, X; ring).
  (* P is a gcd of F' and G' *)
  assert (GP : forall D, D %| F' -> D %| G' -> D %| P).
  { destruct (gcd_exists K HD HG F' G') as [g [G1 [G2 U]]]. intros D D1 D2. apply (rd_trans D g); [apply U; assumption|].
    assert (P %| g) as [h Eh] by (apply U; assumption). assert (Ng : ~ g == r0) by (apply (rd_nz g F'); assumption).
    assert (NP : ~ P == r0) by (intros X; apply Ng; rewrite Eh, X; ring). assert (Nh : ~ h == r0) by (intros X; apply Ng; rewrite Eh, X; ring).
    destruct (deg_exists P v) as [dP HP]. destruct (deg_exists h v) as [dh Hh].
    pose proof (deg_is_mul h P v dh dP Nh NP Hh HP) as Hg. rewrite <- Eh in Hg.
    assert (deg_is K P v (dh + dP)) as HP2. { apply (DEG g); auto. apply (deg_le_weak _ _ dP); [lia|apply HP]. }
    assert (dh + dP = dP) by (apply (deg_is_unique K P v); assumption). assert (dh = 0) by lia. subst dh.
    assert (Fh : vfree v h) by (apply deg_free, Hh).
    assert (h %| r1 K) as [u Hu]. { apply PF'; [exact Fh|]. apply (rd_trans h g); [|exact G1]. exists P. rewrite Eh. ring. }
    exists u. rewrite Eh. transitivity (rmul (rmul u h) P); [rewrite <- Hu; ring|ring]. }
  split; [rewrite EF; apply rd_mul2; assumption|]. split; [rewrite EG; apply rd_mul2; assumption|].
  intros d D1 D2. assert (Nd : ~ d == r0) by (apply (rd_nz d F); assumption).
  destruct (cont_exists v d) as [cd Hcd]. pose proof Hcd as [Fd [[d' Ed] Ud]].
  assert (Pd : is_prim v d') by (apply (pp_prim v d cd); assumption).
  rewrite Ed. apply rd_mul2.
  - apply GP; [apply (prim_dvd v cF)|apply (prim_dvd v cG)]; auto; try apply HcF; try apply HcG.
    + apply (rd_trans d' d); [exists cd; rewrite Ed; ring|]. apply (rd_trans d F); [exact D1|]. rewrite EF. exists (r1 K). ring.
    + apply (rd_trans d' d); [exists cd; rewrite Ed; ring|]. apply (rd_trans d G); [exact D2|]. rewrite EG. exists (r1 K). ring.
  - apply UK; [apply HcF|apply HcG]; auto; apply (rd_trans cd d); auto; exists d'; exact Ed.
Qed.

(** reduction to the content when v does not occur in the other polynomial *)
Lemma gcd_cont_step v F G c g : ~ G == r0 -> vfree v G -> is_cont v F c -> is_gcd c G g -> is_gcd F G g.
Proof.
  intros NG FG [Fc [Dc U]] [H1 [H2 UG]]. split; [apply (rd_trans g c); assumption|]. split; [exact H2|].
  intros d D1 [q D2]. apply UG; [|exists q; exact D2]. apply U; [|exact D1]. apply (free_div K HD HG v G q); assumption.
Qed.

(** ** contents from the coefficients *)
Lemma rcoeff_add v n p q : rcoeff K v n (radd p q) = radd (rcoeff K v n p) (rcoeff K v n q).
Proof. apply rlin_app. Qed.
Lemma rcoeff_lt v n p : deg_lt K p v n -> rcoeff K v n p == r0.
Proof.
  intros L m. cbn [Spec.coef r0]. rewrite (coef_rcoeff K HK). destruct (N.eqb (exp m v) 0); [|reflexivity].
  match goal with |- coef p ?mm = _ => destruct (c0_dec K HK (coef p mm)) as [X|X]; [exact X|]; specialize (L _ X) end.
  cbn [exp] in L. rewrite N.eqb_refl in L. lia.
Qed.
Lemma coef_free_at v a m n : vfree v a -> exp m v = 0 -> coef a ((v, n) :: mdrop v m) = if N.eqb n 0 then coef a m else 0c.
Proof.
  intros F E. destruct (N.eqb_spec n 0) as [->|Nn].
  - apply (coef_proper K HK). intros w. rewrite <- (meq_split v m w), E. reflexivity.
  - match goal with |- coef a ?mm = _ => destruct (c0_dec K HK (coef a mm)) as [X|X]; [exact X|]; specialize (F _ X) end.
    cbn [exp] in F. rewrite N.eqb_refl in F. lia.
Qed.
Lemma rcoeff_shift v n k a : vfree v a -> rcoeff K v n (rmul a (rmono K [(v, k)])) == if N.eqb n k then a else r0.
Proof.
  intros F m. rewrite (coef_rcoeff K HK), (coef_shift K HK). cbn [exp]. rewrite N.eqb_refl, exp_mdrop, N.eqb_refl, N.add_0_r.
  destruct (N.eqb_spec (exp m v) 0) as [E|E].
  - destruct (N.leb_spec k n) as [L|L].
    + transitivity (coef a ((v, n - k) :: mdrop v m)).
      { apply (coef_proper K HK). intros w. cbn [exp]. f_equal. rewrite !exp_mdrop. destruct (N.eqb_spec w v); [reflexivity|].
        cbn [exp]. rewrite exp_mdrop. destruct (N.eqb_spec v w); [congruence|]. destruct (N.eqb_spec w v); [congruence|]. lia. }
      rewrite (coef_free_at v a m _ F E). destruct (N.eqb_spec (n - k) 0), (N.eqb_spec n k); try lia; reflexivity.
    + destruct (N.eqb_spec n k); [lia|]. reflexivity.
  - destruct (N.eqb n k); [|reflexivity]. destruct (c0_dec K HK (coef a m)) as [X|X]; [symmetry; exact X|]. exfalso. apply E, F, X.
Qed.
Lemma rcoeff_mul_free v n d q : vfree v d -> rcoeff K v n (rmul q d) == rmul (rcoeff K v n q) d.
Proof.
  intros F. destruct (deg_bound K q v) as [k L]. apply (rcoeff_sum K HK) in L.
  transitivity (rmul (rcoeff K v n (rbig k (fun j => rmul (rcoeff K v j q) (rmono K [(v, j)])))) d); [|rewrite <- L; reflexivity].
  transitivity (rcoeff K v n (rmul (rbig k (fun j => rmul (rcoeff K v j q) (rmono K [(v, j)]))) d)); [rewrite <- L; reflexivity|].
  clear L. induction k as [|k IH]; cbn [rbig].
  - reflexivity.
  - rewrite (rcoeff_add v n (rbig k _)). rewrite (rmul_add_l K HK), (rcoeff_add v n (rmul (rbig k _) d)), (rmul_add_l K HK), IH.
    apply (radd_proper K HK); [reflexivity|].
    transitivity (rcoeff K v n (rmul (rmul (rcoeff K v (N.of_nat k) q) d) (rmono K [(v, N.of_nat k)]))); [apply (rcoeff_proper K HK v n); ring|].
    rewrite !rcoeff_shift; [destruct (N.eqb n (N.of_nat k)); ring|apply (rcoeff_free K HD)|apply (vfree_mul K HD); [apply (rcoeff_free K HD)|exact F]].
Qed.
Lemma rd_rcoeff v d p : vfree v d -> d %| p <-> forall n, d %| rcoeff K v n p.
Proof.
  intros F. split.
  - intros [q E] n. exists (rcoeff K v n q). rewrite E. apply rcoeff_mul_free, F.
  - intros H. destruct (deg_bound K p v) as [k L]. apply (rcoeff_sum K HK) in L. rewrite L. clear L.
    induction k as [|k IH]; cbn [rbig]; [apply rd_0|]. apply rd_add; [exact IH|]. apply rd_mulr, H.
Qed.
(** c is a gcd of the list *)
Definition gcd_list (l : list (rpoly C)) (c : rpoly C) : Prop :=
  (forall a, In a l -> c %| a) /\ forall d, (forall a, In a l -> d %| a) -> d %| c.
Lemma cont_of_list v p l c : ~ p == r0 -> gcd_list l c -> (forall a, In a l -> exists n, a == rcoeff K v n p) ->
  (forall n, rcoeff K v n p == r0 \/ exists a, In a l /\ a == rcoeff K v n p) -> is_cont v p c.
Proof.
  intros Np [G1 G2] H1 H2.
  assert (exists n, ~ rcoeff K v n p == r0) as [n Nn].
  { destruct (deg_bound K p v) as [k L]. apply (rcoeff_sum K HK) in L. destruct (Z0 (rcoeff K v 0 p)) as [X|X]; [|exists 0; exact X].
    assert (E : p == r0 \/ exists n, ~ rcoeff K v n p == r0); [|destruct E; [contradiction|assumption]].
    rewrite L at 1. clear L. induction k as [|k IH]; cbn [rbig]; [left; reflexivity|]. destruct IH as [IH|IH]; [|auto].
    destruct (Z0 (rcoeff K v (N.of_nat k) p)) as [Y|Y]; [left; rewrite IH, Y; ring|right; exists (N.of_nat k); exact Y]. }
  assert (Fc : vfree v c).
  { destruct (H2 n) as [X|[a [I E]]]; [contradiction|]. destruct (G1 a I) as [q Eq]. apply (free_div K HD HG v a q); auto.
    - rewrite E. exact Nn.
    - rewrite E. apply (rcoeff_free K HD). }
  split; [exact Fc|]. split.
  - apply (rd_rcoeff v c p Fc). intros k. destruct (H2 k) as [X|[a [I E]]]; [rewrite X; apply rd_0|rewrite <- E; apply G1, I].
  - intros d Fd Dd. apply G2. intros a I. destruct (H1 a I) as [k E]. rewrite E. apply (rd_rcoeff v d p Fd). exact Dd.
Qed.
Lemma gcd_list_one a : gcd_list [a] a.
Proof. split; [intros b [<-|[]]; apply rd_refl|]. intros d H. apply H. left. reflexivity. Qed.
Lemma gcd_list_snoc l c a g : gcd_list l c -> is_gcd c a g -> gcd_list (l ++ [a]) g.
Proof.
  intros [H1 H2] [G1 [G2 U]]. split.
  - intros b I. apply in_app_or in I as [I|[<-|[]]]; [apply (rd_trans g c); auto|exact G2].
  - intros d H. apply U; [apply H2; intros b I; apply H|apply H]; apply in_or_app; [left; exact I|right; left; reflexivity].
Qed.
Lemma is_cont_free v p : vfree v p -> is_cont v p p.
Proof. intros F. split; [exact F|]. split; [apply rd_refl|]. auto. Qed.

(** ** divisors of a single term *)
Lemma rcoeff0_mul v p q : rcoeff K v 0 (rmul p q) == rmul (rcoeff K v 0 p) (rcoeff K v 0 q).
Proof.
  unfold rcoeff. apply (rlin_mul K HK). intros m1 m2. rewrite exp_app. cbn [Spec.rmul].
  destruct (N.eqb_spec (exp m1 v) 0) as [E1|E1], (N.eqb_spec (exp m2 v) 0) as [E2|E2], (N.eqb_spec (exp m1 v + exp m2 v) 0) as [E|E]; try lia; try reflexivity.
  unfold Spec.rmul. cbn. rewrite mdrop_app. apply (req_single K); [intros w; reflexivity|ring].
Qed.
Lemma rvar_prime v p q : rvar K v %| rmul p q -> rvar K v %| p \/ rvar K v %| q.
Proof.
  assert (C1 : forall a, rcoeff K v 0 a == r0 -> rvar K v %| a).
  { intros a E. destruct (deg_bound K a v) as [k L]. apply (rcoeff_sum K HK) in L. rewrite L. clear L.
    induction k as [|k IH]; cbn [rbig]; [apply rd_0|]. apply rd_add; [exact IH|]. destruct k as [|k].
    - rewrite E. apply (rd_trans _ r0); [apply rd_0|exists (rmono K [(v, 0)]); ring].
    - apply rd_mull. exists (rmono K [(v, N.of_nat k)]). change (rvar K v) with (rmono K [(v, 1)]). rewrite <- (rmono_app K HK).
      apply (req_single K); [ |reflexivity]. intros w. cbn [app exp]. destruct (N.eqb v w); lia. }
  intros [u E].
  assert (X : rmul (rcoeff K v 0 p) (rcoeff K v 0 q) == r0).
  { rewrite <- rcoeff0_mul, E, rcoeff0_mul. assert (rcoeff K v 0 (rvar K v) == r0) as ->; [|ring].
    unfold rvar, rcoeff, rlin. cbn. rewrite N.eqb_refl. cbn. reflexivity. }
  apply (rintegral K HD HG) in X as [X|X]; [left|right]; apply C1, X.
Qed.
Lemma divisor_const c D E : c <> 0c -> rmul E D == rconst c -> D == rconst (coef D []) /\ c = cmul K (coef E []) (coef D []).
Proof.
  intros Nc H. assert (Nz : ~ rconst c == r0) by (intros X; apply Nc, (rconst_inj K HD); rewrite X; symmetry; apply (rconst_0 K HD)).
  assert (D == rconst (coef D [])) as ED.
  { apply (inV_nil K HD). apply (inV_div K HD HG [] (rconst c) E D); [symmetry; exact H|exact Nz|apply (inV_const K)]. }
  assert (E == rconst (coef E [])) as EE.
  { apply (inV_nil K HD). apply (inV_div K HD HG [] (rconst c) D E); [rewrite <- H; ring|exact Nz|apply (inV_const K)]. }
  split; [exact ED|]. apply (rconst_inj K HD). rewrite <- H, ED, EE, (rconst_mul K). rewrite !(const_coef K HD). reflexivity.
Qed.
Lemma term_split m c : [(m, c)] == rmul (rconst c) (rmono K m).
Proof. apply (req_single K); [intros v; reflexivity|]. cbn. ring. Qed.
Definition tdeg (m : smono) : N := fold_right (fun t s => snd t + s) 0 m.
Lemma divisor_term m : forall c D E, c <> 0c -> rmul E D == [(m, c)] ->
  exists m' d m'' e, D == [(m', d)] /\ E == [(m'', e)] /\ c = cmul K e d.
Proof.
  assert (G : forall (n : nat) m c D E, (N.to_nat (tdeg m) <= n)%nat -> c <> 0c -> rmul E D == [(m, c)] ->
     exists m' d m'' e, D == [(m', d)] /\ E == [(m'', e)] /\ c = cmul K e d).
  { clear m. induction n as [n IH] using (well_founded_induction lt_wf). intros m c D E L Nc H.
    induction m as [|[v e] m IHm] in L, H |- *.
    - destruct (divisor_const c D E Nc H) as [ED Ec]. destruct (divisor_const c E D Nc) as [EE _]; [rewrite <- H; ring|].
      exists [], (coef D []), [], (coef E []). auto.
    - destruct (N.eq_dec e 0) as [->|Ne].
      { apply IHm; [cbn in L; exact L|]. rewrite H. apply (req_single K); [ |reflexivity]. intros w. cbn [exp]. destruct (N.eqb v w); lia. }
      clear IHm. assert (H' : rmul E D == rmul [((v, e - 1) :: m, c)] (rvar K v)).
      { rewrite H. unfold Spec.rmul, rvar. cbn [flat_map map app fst snd]. apply (req_single K); [ |ring].
        intros w. cbn [exp app]. rewrite exp_app. cbn [exp]. destruct (N.eqb v w); lia. }
      assert (Nv : ~ rvar K v == r0).
      { intros X. apply (domain_nontrivial K HD). specialize (X [(v, 1)]). unfold rvar in X. cbn [Spec.coef r0] in X. rewrite meqb_refl in X. rewrite <- X. ring. }
      assert (Ln : (N.to_nat (tdeg ((v, (e - 1)%N) :: m)) < n)%nat) by (unfold tdeg in *; cbn [fold_right snd] in *; lia).
      assert (SH : forall (m0 : smono) (d : C), rmul [(m0, d)] (rvar K v) == [((v, 1) :: m0, d)]).
      { intros m0 d. unfold Spec.rmul, rvar. cbn [flat_map map app fst snd]. apply (req_single K); [ |ring].
        intros w. rewrite exp_app. cbn [exp]. lia. }
      destruct (rvar_prime v E D) as [[E' EE]|[D' ED]]; [exists [((v, e - 1) :: m, c)]; exact H'| |].
      + destruct (IH _ Ln ((v, e - 1) :: m) c D E') as [m' [d [m'' [e' [X1 [X2 X3]]]]]]; [lia|exact Nc| |].
        { apply (rcancel K HD HG _ _ (rvar K v) Nv). rewrite <- H', EE. ring. }
        exists m', d, ((v, 1) :: m''), e'. split; [exact X1|]. split; [rewrite EE, X2; apply SH|exact X3].
      + destruct (IH _ Ln ((v, e - 1) :: m) c D' E) as [m' [d [m'' [e' [X1 [X2 X3]]]]]]; [lia|exact Nc| |].
        { apply (rcancel K HD HG _ _ (rvar K v) Nv). rewrite <- H', ED. ring. }
        exists ((v, 1) :: m'), d, m'', e'. split; [rewrite ED, X1; apply SH|]. auto. }
  intros c D E. apply (G _ m c D E (le_n _)).
Qed.
End GM.
