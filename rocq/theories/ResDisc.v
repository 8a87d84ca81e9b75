(** * discriminant(G,v) (resultant.hh 537-556): the leading coefficient divides the Sylvester determinant of G
      and its derivative. *)
From Coq Require Import Ring_theory Ring Setoid Morphisms Lia.
From Verif Require Import Prelude Coef Spec SpecProofs SpecOps SpecOpsProofs OrderSpec PairVec PairVecProofs Mono MonoProofs
  MonoStruct MonoStructProofs Heap Poly PolyMulProofs Div PolyDivProofs PolyOps MonoOpsProofs PolyOpsGen PolyOpsProofs PolyOps2Proofs PolyOps3Proofs
  Prem PremProofs GcdDom GcdPoly GcdMath GcdHom GcdRep GcdLex SqfMath ResSpec ResDet ResMath ResChain ResSyl ResBez Resultant ResProofs ResInit ResBezProofs ResTop.

Section D.
Context {C : Type} (K : coefs C) (HD : domain_ok K) (v : var).
Let HK : ring_ok K := domain_ring K HD.
Local Existing Instance HK.
Add Ring Kring : (ring_laws K HK).
Add Ring Rring : (rring K HK) (setoid (req_equiv K) (rring_ext K HK)).
Notation R := (rpoly C).
Notation rmul := (rmul K). Notation rpow := (rpow K).
Local Infix "==" := (req K) (at level 70).
Local Infix "%|" := (rdivides K) (at level 70).
Notation r0 := (@Spec.r0 C).
Notation cf := (cf K v). Notation dl := (dl K v). Notation X := (X K v).
Local Existing Instance cf_proper.

Lemma expand_dvd {A} (d : R) (a : A -> R) rows : forall phi, (forall r, In r rows -> d %| a r) -> d %| expand K a phi rows.
Proof.
  induction rows as [|r rs IH]; intros phi H; cbn [expand].
  - exists r0. ring.
  - destruct (H r (or_introl eq_refl)) as [q E]. destruct (IH (fun l => phi (r :: l)) (fun x Hx => H x (or_intror Hx))) as [q' E'].
    exists (rsub K (rmul q (phi rs)) q'). unfold rsub in *. rewrite E', E. ring.
Qed.
Lemma in_shifts n P p : In p (shifts K v n P) -> exists i, i < n /\ p = rmul (X i) P.
Proof.
  induction n as [|n IH]; cbn [shifts]; intros H; [destruct H|]. destruct H as [<-|H]; [exists n; split; [lia|reflexivity]|].
  destruct (IH H) as (i & Hi & E). exists i. split; [lia|exact E].
Qed.
Lemma cf_deriv k (p : R) : cf k (rderiv K v p) == rmul (rconst (cnat K (k + 1))) (cf (k + 1) p).
Proof.
  rewrite <- (rscale_mul K HK). intros m. unfold ResMath.cf. rewrite (coef_scale K HK). rewrite !(coef_rcoeff K HK). destruct (N.eqb (exp m v) 0); [|ring].
  rewrite (coef_deriv K HD). cbn [exp]. rewrite N.eqb_refl, exp_mdrop, N.eqb_refl.
  replace (N.to_nat (N.of_nat k + 0 + 1)) with (k + 1) by lia. f_equal. apply (coef_proper K HK). intros w. cbn [exp].
  rewrite !exp_mdrop. cbn [exp]. rewrite exp_mdrop. destruct (N.eqb_spec w v) as [->|ne]; [rewrite N.eqb_refl; lia|].
  destruct (N.eqb_spec v w) as [E|_]; [congruence|]. lia.
Qed.
Lemma disc_dvd m (G : R) : 1 <= m -> dl (S m) G ->
  cf m G %| determinant K (sylvester K v m (m - 1) G (rderiv K v G)).
Proof.
  intros Hm DG. set (n := m + (m - 1)).
  assert (L : length (sylvester K v m (m - 1) G (rderiv K v G)) = S (n - 1)) by (unfold sylvester; rewrite map_length, app_length, !(shifts_length K v); unfold n; lia).
  unfold determinant. rewrite L. cbn [seq map det_by]. apply expand_dvd. intros row Hrow. unfold sylvester in Hrow. apply in_map_iff in Hrow as (P & <- & HP). fold n.
  assert (E : entry_at 0 (coeff_row K v n P) = cf (n - 1) P).
  { unfold entry_at, coeff_row. replace n with (S (n - 1)) at 1 by (unfold n; lia). rewrite seq_S, rev_app_distr. reflexivity. }
  rewrite E. assert (Lk : forall k, m <= k -> cf m G %| cf k G).
  { intros k Hk. destruct (Nat.eq_dec k m) as [->|ne]; [exists (Spec.r1 K); ring|]. exists r0. rewrite (cf_dl K HD v (S m) k G DG) by lia. ring. }
  apply in_app_iff in HP as [HP|HP]; apply in_shifts in HP as (i & Hi & ->).
  - assert (E2 : cf (n - 1) (rmul (X i) G) == cf (n - 1 - i) G) by (replace (n - 1) with (i + (n - 1 - i)) at 1 by (unfold n; lia); apply (cf_X K HD)).
    destruct (Lk (n - 1 - i) ltac:(unfold n; lia)) as [q Eq]. exists q. rewrite E2. exact Eq.
  - assert (E2 : cf (n - 1) (rmul (X i) (rderiv K v G)) == cf (n - 1 - i) (rderiv K v G)) by (replace (n - 1) with (i + (n - 1 - i)) at 1 by (unfold n; lia); apply (cf_X K HD)).
    destruct (Lk (n - 1 - i + 1) ltac:(unfold n; lia)) as [q Eq]. exists (rmul (rconst (cnat K (n - 1 - i + 1))) q). rewrite E2, cf_deriv, Eq. ring.
Qed.
End D.

From Verif Require Import SqfProofs.
Local Open Scope Z_scope.
Section DM.
Notation K := Zc.
Context (v : var).
Context (compress dcompress : poly Z -> poly Z -> outcome (option (poly Z))).
Let HD : domain_ok K := Zc_domain.
Let HG : cgcd_ok K := Z_cgcd.
Let HQ : quorem_ok K := Zc_quorem.
Let HK : ring_ok K := domain_ring K HD.
Local Existing Instance HK.
Add Ring Kring2 : (ring_laws K HK).
Add Ring Rring2 : (rring K HK) (setoid (req_equiv K) (rring_ext K HK)).
Notation vo := (vuniv v).
Let Hvo : vorder_ok vo := vuniv_ok v.
Notation S := (lexS vo).
Notation norm := (normal (mok vo) (lex_gt vo) K).
Notation graw := (graw sm).
Notation rmul := (rmul K).
Local Infix "==" := (req K) (at level 70).
Local Infix "%|" := (rdivides K) (at level 70).
Notation r0 := (@Spec.r0 Z).
Notation dg := (dg v).
Notation cf := (cf K v). Notation dl := (dl K v).
Context (HC : comp_all S (mok vo) sm K compress).
Context (HDC : forall F G, norm F -> norm G -> dcomp_good S (mok vo) sm K dcompress F G).

Lemma first_is_v G : norm G -> (1 <= dg G)%nat -> first_var G = v /\ first_deg G = p_degree G v /\ is_number G = false.
Proof.
  intros NG H. destruct (up_deg_spec K HD v G NG) as (E & P & _).
  destruct (main_ok vo Hvo K HK HD compress HC v G G NG NG (topp_univ _ v _ eq_refl) (topp_univ _ v _ eq_refl)) as (t & r & _ & _ & EG & _ & A & _ & B & _).
  { unfold ResProofs.dg in H. lia. }
  split; [exact A|]. split; [exact B|]. destruct (is_number G) eqn:EN; [|reflexivity]. exfalso.
  rewrite EG in EN, A, B. destruct r; [|discriminate]. cbn [is_number] in EN. cbn [first_deg] in B. unfold mfirst_deg in B. unfold mempty in EN.
  destruct (md (fst t)); [|discriminate]. rewrite <- EG in B. unfold ResProofs.dg in H. lia.
Qed.
Lemma deriv_ok G : norm G -> (1 <= dg G)%nat -> norm (p_derivative_lex K G) /\ graw (p_derivative_lex K G) == rderiv K v (graw G) /\
  p_derivative_lex K G <> [] /\ dg (p_derivative_lex K G) = (dg G - 1)%nat.
Proof.
  intros NG H. destruct (first_is_v G NG H) as (E1 & _ & _). rewrite (derivative_lex_eq vo Hvo K G NG), E1.
  assert (Nd : norm (p_derivative K v G)).
  { apply (derivative_normal vo Hvo S (or_introl eq_refl) K HK v G); [|exact NG]. intros n c Hn Hc E. destruct n as [|n]; [lia|].
    apply (domain_integral K HD) in E as [E|E]; [exact (Z_char0 n E)|contradiction]. }
  pose proof (derivative_req vo Hvo S K HK v G NG) as R. split; [exact Nd|]. split; [exact R|].
  assert (Gne : G <> []) by (intros ->; vm_compute in H; lia).
  assert (D : cf (dg G - 1) (graw (p_derivative K v G)) == rmul (rconst (cnat K (dg G))) (cf (dg G) (graw G))).
  { transitivity (cf (dg G - 1) (rderiv K v (graw G))); [apply (cf_proper K HD v), R|]. rewrite (cf_deriv K HD v).
    replace (dg G - 1 + 1)%nat with (dg G) by lia. reflexivity. }
  assert (Nz : ~ cf (dg G - 1) (graw (p_derivative K v G)) == r0).
  { intros X. rewrite D in X. apply (rintegral K HD HG) in X as [X|X]; [|exact (dg_lc K HD v G NG Gne X)].
    assert (Y : cnat K (dg G) = c0 K) by (apply (rconst_inj K HD); rewrite X; symmetry; apply (rconst_0 K HD)).
    destruct (dg G) as [|n]; [lia|]. exact (Z_char0 n Y). }
  assert (DL : dl (Datatypes.S (dg G - 1)) (graw (p_derivative K v G))).
  { apply (proj2 (dl_proper K v _ _ _ R)). destruct (up_deg_spec K HD v G NG) as (_ & _ & [L _]).
    intros m Hm. assert (L' : deg_le K (graw G) v (N.of_nat (dg G - 1) + 1)) by (intros x Hx; specialize (L x Hx); lia).
    specialize (deriv_le K HD v (graw G) _ L' m Hm). lia. }
  split; [intros E; apply Nz; rewrite E; intros m; unfold ResMath.cf; rewrite (coef_rcoeff K HK); destruct (N.eqb (exp m v) 0); reflexivity|].
  apply (dg_unique K HD v _ _ Nd DL Nz).
Qed.
Lemma leadcoeff_ok G : norm G -> (1 <= dg G)%nat -> norm (leadcoeff_lex G) /\ graw (leadcoeff_lex G) == cf (dg G) (graw G) /\ leadcoeff_lex G <> [].
Proof.
  intros NG H. destruct (first_is_v G NG H) as (E1 & E2 & EN). destruct (up_deg_spec K HD v G NG) as (E & P & _).
  assert (Gne : G <> []) by (intros ->; vm_compute in H; lia).
  assert (X : norm (leadcoeff_lex G) /\ graw (leadcoeff_lex G) == cf (dg G) (graw G)).
  { unfold leadcoeff_lex. rewrite E1, E2.
    assert (T : topp vo v G) by apply (topp_univ _ v _ eq_refl).
    rewrite (lead_lex_cls vo Hvo K v (p_degree G v) G) by (try assumption; try (unfold ResProofs.dg in H; lia); apply (deg_all vo Hvo K v _ NG)).
    destruct (cls_spec vo Hvo S (or_introl eq_refl) K HK v (p_degree G v) G NG) as [N1 R1]; [lia|]. split; [exact N1|]. rewrite R1.
    unfold ResMath.cf, ResProofs.dg. rewrite E. replace (Z.to_N (p_degree G v)) with (N.of_nat (Z.to_nat (p_degree G v))) by lia. reflexivity. }
  destruct X as [N1 R1]. split; [exact N1|]. split; [exact R1|]. intros X. apply (dg_lc K HD v G NG Gne). rewrite <- R1, X. reflexivity.
Qed.

Definition dsign (m : nat) : rpoly Z := rconst ((-1) ^ (Z.of_nat m * (Z.of_nat m - 1) / 2)).
Lemma sign_bit m : negb (Z.land (Z.of_nat m * (Z.of_nat m - 1)) 3 =? 0) = Z.odd (Z.of_nat m * (Z.of_nat m - 1) / 2).
Proof.
  change 3 with (Z.ones 2). rewrite Z.land_ones by lia. change (2 ^ 2) with 4.
  assert (E : exists k, Z.of_nat m * (Z.of_nat m - 1) = 2 * k).
  { assert (Ev : Z.even (Z.of_nat m * (Z.of_nat m - 1)) = true) by (rewrite Z.even_mul, Z.even_sub; destruct (Z.even (Z.of_nat m)); reflexivity).
    apply Z.even_spec in Ev. destruct Ev as [k Hk]. exists k. exact Hk. }
  destruct E as [k ->]. rewrite (Z.mul_comm 2 k), Z.div_mul by lia. replace 4 with (2 * 2) by lia. rewrite Z.mul_mod_distr_r by lia.
  rewrite Zmod_odd. destruct (Z.odd k); reflexivity.
Qed.
Lemma dsign_val m : (1 <= m)%nat -> dsign m = rconst (if Z.odd (Z.of_nat m * (Z.of_nat m - 1) / 2) then -1 else 1).
Proof.
  intros H. unfold dsign. f_equal. assert (P : 0 <= Z.of_nat m * (Z.of_nat m - 1) / 2) by (apply Z.div_pos; nia).
  set (k := Z.of_nat m * (Z.of_nat m - 1) / 2) in *. clearbody k. clear m H. change (-1) with (- (1)). destruct (Z.odd k) eqn:O.
  - apply Z.odd_spec in O. rewrite Z.pow_opp_odd by exact O. rewrite Z.pow_1_l by exact P. reflexivity.
  - assert (Ev : Z.Even k) by (apply Z.even_spec; rewrite <- Z.negb_odd, O; reflexivity). rewrite Z.pow_opp_even by exact Ev. apply Z.pow_1_l, P.
Qed.
(** lines 544-553 on the converted polynomial *)
Definition disc_core (fuel : nat) (G1 : poly Z) : outcome (poly Z) :=
  O1 <- resultant_up K v compress dcompress fuel G1 (p_derivative_lex K G1) ;;
  rdiv K v dcompress fuel (if negb (Z.land (p_up_deg v G1 * (p_up_deg v G1 - 1)) 3 =? 0) then p_neg K O1 else O1) (leadcoeff_lex G1).
Lemma disc_core_ok G : norm G -> (1 <= dg G)%nat -> Z.of_nat (dg G) < 2 ^ 63 ->
  exists D, norm D /\ rmul (graw D) (cf (dg G) (graw G)) == rmul (dsign (dg G)) (determinant K (sylvester K v (dg G) (dg G - 1) (graw G) (rderiv K v (graw G)))) /\
    exists n0, forall fuel, (n0 <= fuel)%nat -> disc_core fuel G = Ok D.
Proof.
  intros NG H Hb. destruct (deriv_ok G NG H) as (NF & RF & Fne & DF). destruct (leadcoeff_ok G NG H) as (NL & RL & Lne).
  assert (Gne : G <> []) by (intros ->; vm_compute in H; lia).
  destruct (up_ok K HD HG HQ v compress dcompress HC HDC G (p_derivative_lex K G) NG NF Gne Fne Hb) as (O1 & NO & RO & n0 & T); [rewrite DF; lia|].
  rewrite DF in RO.
  assert (DG : dl (Datatypes.S (dg G)) (graw G)) by apply (dg_dl K HD v G NG).
  assert (DF' : dl (Datatypes.S (dg G - 1)) (graw (p_derivative_lex K G))) by (rewrite <- DF; apply (dg_dl K HD v _ NF)).
  assert (DF2 : dl (Datatypes.S (dg G - 1)) (rderiv K v (graw G))) by (apply (proj1 (dl_proper K v _ _ _ RF)), DF').
  set (det := determinant K (sylvester K v (dg G) (dg G - 1) (graw G) (rderiv K v (graw G)))).
  assert (RO' : graw O1 == det).
  { rewrite RO. unfold det. rewrite <- (subres_det K HD v (dg G) (dg G - 1) _ _ ltac:(lia) DG DF'), <- (subres_det K HD v (dg G) (dg G - 1) _ _ ltac:(lia) DG DF2).
    apply (subres_eq K HD v); [reflexivity|exact RF]. }
  destruct (disc_dvd K HD v (dg G) (graw G) H DG) as [q Eq]. fold det in Eq.
  pose proof (up_eq K HD v G NG) as EU.
  set (O2 := if negb (Z.land (p_up_deg v G * (p_up_deg v G - 1)) 3 =? 0) then p_neg K O1 else O1).
  assert (X : norm O2 /\ graw O2 == rmul (dsign (dg G)) det).
  { unfold O2. rewrite EU, sign_bit, (dsign_val (dg G) H). destruct (Z.odd _).
    - destruct (neg_if_ok K HD v 1 O1 NO) as [N1 R1]. cbn [Z.of_nat] in N1, R1. change (Z.odd (Z.pos (Pos.of_succ_nat 0))) with true in N1, R1.
      unfold neg_if in N1, R1. split; [exact N1|]. rewrite R1, RO'. cbn [Spec.rpow]. apply (rmul_proper K HK); [|reflexivity].
      intros m. unfold ropp, r1, rconst, Spec.rmul. cbn. destruct (meqb [] m); reflexivity.
    - split; [exact NO|]. rewrite RO'. change (rconst 1) with (Spec.r1 K). ring. }
  destruct X as [N2 R2].
  destruct (div_ok K HD HQ v dcompress HDC O2 (leadcoeff_lex G) (rmul (dsign (dg G)) q) N2 NL Lne) as (Dv & ND & RD & n1 & TD).
  { rewrite R2, RL, Eq. ring. }
  exists Dv. split; [exact ND|]. split; [rewrite RD, Eq; ring|]. exists (Nat.max n0 n1). intros fuel Hf. unfold disc_core. rewrite (T fuel) by lia. cbn [obind]. fold O2. apply TD. lia.
Qed.
End DM.

(** G and its derivative have a common factor of positive degree in v only if G has a repeated one. *)
Section Rep.
Notation K := Zc.
Context (v : var).
Let HD : domain_ok K := Zc_domain.
Let HG : cgcd_ok K := Z_cgcd.
Let HK : ring_ok K := domain_ring K HD.
Local Existing Instance HK.
Add Ring Kring3 : (ring_laws K HK).
Add Ring Rring3 : (rring K HK) (setoid (req_equiv K) (rring_ext K HK)).
Notation rmul := (rmul K).
Local Infix "==" := (req K) (at level 70).
Local Infix "%|" := (rdivides K) (at level 70).
Notation r0 := (@Spec.r0 Z).
Lemma deriv_free c : vfree K v c -> rderiv K v c == r0.
Proof.
  intros Fr m. rewrite (coef_deriv K HD). cbn [Spec.r0 coef]. destruct (c0_dec K HK (coef K c ((v, (exp m v + 1)%N) :: mdrop v m))) as [E|E].
  - rewrite E. cbn. lia.
  - specialize (Fr _ E). cbn [exp] in Fr. rewrite N.eqb_refl in Fr. lia.
Qed.
Lemma no_common G : ~ G == r0 -> (forall P d, rmul P P %| G -> deg_is K P v d -> d = 0%N) ->
  ~ common K v G (rderiv K v G).
Proof.
  intros NzG SQ (P & d & PP & PG & PD & Dd & H0).
  destruct (cont_exists K HD HG v G) as [c Hc]. pose proof Hc as (Fc & [q Eq] & _).
  assert (Pq : is_prim K v q) by (apply (pp_prim K HD HG v G c q NzG Hc Eq)).
  assert (Nq : ~ q == r0) by (intros X; apply NzG; rewrite Eq, X; ring).
  assert (Nc : ~ c == r0) by (intros X; apply NzG; rewrite Eq, X; ring).
  assert (Ed : rderiv K v G == rmul c (rderiv K v q)).
  { transitivity (rderiv K v (rmul q c)); [apply (rderiv_proper K HK v), Eq|]. rewrite (rderiv_leibniz K HK), (deriv_free c Fc). ring. }
  assert (D1 : P %| q).
  { apply (prim_dvd K HD HG v c q P Fc Nc PP). destruct PG as [a Ea]. exists a. rewrite <- Ea, Eq. ring. }
  assert (D2 : P %| rderiv K v q).
  { apply (prim_dvd K HD HG v c _ P Fc Nc PP). destruct PD as [a Ea]. exists a. rewrite <- Ea, Ed. reflexivity. }
  destruct (gcd_exists K HD HG q (rderiv K v q)) as [D IG]. pose proof IG as (_ & _ & IG3). specialize (IG3 P D1 D2).
  assert (UD : unit K D).
  { apply (sqf_conv K HD HG Z_char0 Z_unit_dec v q Pq Nq D IG). intros h Hh. destruct (deg_exists K HD h v) as [k Hk].
    assert (k = 0%N) as ->.
    { apply (SQ h k); [|exact Hk]. destruct Hh as [a Ea]. exists (rmul a c). rewrite Eq, Ea. ring. }
    apply (prim_of_dvd K HD v q h Pq); [destruct Hh as [a Ea]; exists (rmul a h); rewrite Ea; ring| |apply (rd_refl K HD)].
    intros m Hm. destruct Hk as [L _]. specialize (L m Hm). lia. }
  assert (UP : P %| Spec.r1 K) by (apply (rd_trans K HD P D); assumption). destruct UP as [w Ew].
  assert (N1 : ~ Spec.r1 K == r0) by (intros X; specialize (X []); cbn in X; discriminate).
  assert (Np : ~ P == r0) by (intros X; apply N1; rewrite Ew, X; ring).
  assert (Nw : ~ w == r0) by (intros X; apply N1; rewrite Ew, X; ring).
  destruct (deg_exists K HD w v) as [dw Dw]. pose proof (deg_is_mul K HD HG w P v dw d Nw Np Dw Dd) as M. rewrite <- Ew in M.
  assert (M0 : deg_is K (Spec.r1 K) v 0) by (split; [intros m Hm; rewrite (vfree_const K v (c1 K) m Hm); lia|left; reflexivity]).
  pose proof (deg_is_unique K _ _ _ _ M M0). lia.
Qed.
Lemma repeated_common G P d : rmul P P %| G -> deg_is K P v d -> (0 < d)%N -> exists P d, P %| G /\ P %| rderiv K v G /\ deg_is K P v d /\ (0 < d)%N.
Proof.
  intros [a Ea] Dd H0. exists P, d. split; [exists (rmul a P); rewrite Ea; ring|]. split; [|split; assumption].
  exists (radd (rmul (rderiv K v a) P) (rmul a (rmul (rconst 2) (rderiv K v P)))).
  transitivity (rderiv K v (rmul a (rmul P P))); [apply (rderiv_proper K HK v), Ea|]. rewrite !(rderiv_leibniz K HK).
  assert (E2 : rconst 2 == radd (Spec.r1 K) (Spec.r1 K)).
  { intros m. unfold radd, r1, rconst. rewrite (coef_app K HK). cbn [Spec.coef]. destruct (meqb [] m); reflexivity. }
  rewrite E2. ring.
Qed.
End Rep.
