(** * Univariate gcd over the integers: the CRT loop (UGcd.v). *)
From Coq Require Import Ring_theory Ring Setoid Morphisms Znumtheory Sorting.Sorted.
From Verif Require Import Prelude Coef Spec SpecProofs SpecOps SpecOpsProofs GcdDom GcdPoly GcdMath OrderSpec PairVec PairVecProofs
  Mono MonoStruct MonoStructProofs Heap Poly PolyMulProofs Div PolyDivProofs PolyOps PolyOpsGen ConvertProofs GcdHom GcdRep Zp NumSpec ZpProofs
  Gcd GcdTerm GcdProofs Dense DenseWord DensePoly DenseMul DenseDiv DenseGcd DenseFuel DenseSparse UGcd UGcdBase UGcdProofs UGcdMod.
Local Open Scope Z_scope.

Local Notation K := Zc.
Local Notation HD := Zc_domain.
Local Notation HG := Z_cgcd.
Local Instance HK : ring_ok K := domain_ring K Zc_domain.
Add Ring Rring : (rring K HK) (setoid (req_equiv K) (rring_ext K HK)).
Local Notation gt := (m_gt uniS).
Local Notation norm := (normal uok (m_gt uniS) K).
Local Notation graw := (graw usm).
Local Notation "a == b" := (req K a b) (at level 70).
Local Notation "a %| b" := (rdivides K a b) (at level 70).
Local Notation HO := (ms_order uniS uok usm uniS_ok).

Lemma ueqb_iff a b : m_eq uniS a b = true <-> a = b.
Proof. apply Z.eqb_eq. Qed.
Lemma ucrt_spec {p} (inv M : Z) (P : upz) : forall Q : list (Z * zpc p), Forall (fun t => uok (fst t)) P -> desc gt P ->
  Forall (fun t => uok (fst t)) Q -> desc gt Q ->
  let W := ucrt_merge inv M P Q in
  desc gt W /\
  (forall e, In e W -> (exists t, In t P /\ fst e = fst t) \/ (exists u, In u Q /\ fst e = fst u)) /\
  (forall u, In u Q -> exists e, In e W /\ fst e = fst u).
Proof.
  induction P as [|t P IH]; intros Q AP DP AQ DQ W.
  - subst W. cbn [ucrt_merge]. split; [|split].
    + unfold desc. rewrite map_map. exact DQ.
    + intros e He. apply in_map_iff in He as (u & <- & Hu). right. exists u. auto.
    + intros u Hu. exists (ucrt_r inv M u). split; [apply in_map, Hu|reflexivity].
  - pose proof DP as DP0. apply (desc_cons gt) in DP as [DP Gt]. pose proof (Forall_inv AP) as Ot. pose proof (Forall_inv_tail AP) as AP'. cbv beta in Ot.
    induction Q as [|u Q IHQ].
    + subst W. cbn [ucrt_merge]. split; [|split].
      * unfold desc. rewrite map_map. exact DP0.
      * intros e He. apply in_map_iff in He as (t0 & <- & Ht0). left. exists t0. auto.
      * intros u [].
    + pose proof DQ as DQ0. apply (desc_cons gt) in DQ as [DQ Gu]. pose proof (Forall_inv AQ) as Ou. pose proof (Forall_inv_tail AQ) as AQ'. cbv beta in Ou.
      specialize (IHQ AQ' DQ). subst W. cbn [ucrt_merge] in *. destruct (gt (fst t) (fst u)) eqn:G1; [|destruct ((m_eq uniS) (fst t) (fst u)) eqn:G2].
      * destruct (IH (u :: Q) AP' DP AQ DQ0) as (D1 & D2 & D3). split; [|split].
        -- apply (desc_cons gt). split; [exact D1|]. apply Forall_forall. intros e He. cbn [fst ucrt_l].
           destruct (D2 e He) as [(t0 & Ht0 & ->)|(u0 & Hu0 & ->)].
           ++ rewrite Forall_forall in Gt. apply Gt, Ht0.
           ++ destruct Hu0 as [<-|Hu0]; [exact G1|]. rewrite Forall_forall in Gu, AQ'.
              apply (gt_trans _ _ HO (fst t) (fst u) (fst u0) Ot Ou (AQ' u0 Hu0) G1 (Gu u0 Hu0)).
        -- intros e [<-|He]; [left; exists t; split; [left|]; reflexivity|].
           destruct (D2 e He) as [(t0 & Ht0 & X)|X]; [left; exists t0; split; [right; exact Ht0|exact X]|right; exact X].
        -- intros u0 Hu0. destruct (D3 u0 Hu0) as (e & He & X). exists e. split; [right; exact He|exact X].
      * apply ueqb_iff in G2. destruct (IH Q AP' DP AQ' DQ) as (D1 & D2 & D3). split; [|split].
        -- apply (desc_cons gt). split; [exact D1|]. apply Forall_forall. intros e He. cbn [fst].
           destruct (D2 e He) as [(t0 & Ht0 & ->)|(u0 & Hu0 & ->)].
           ++ rewrite Forall_forall in Gt. rewrite <- G2. apply Gt, Ht0.
           ++ rewrite Forall_forall in Gu. apply Gu, Hu0.
        -- intros e [<-|He]; [right; exists u; split; [left|]; reflexivity|].
           destruct (D2 e He) as [(t0 & Ht0 & X)|(u0 & Hu0 & X)]; [left; exists t0|right; exists u0]; (split; [right; assumption|exact X]).
        -- intros u0 [<-|Hu0]; [eexists; split; [left; reflexivity|reflexivity]|].
           destruct (D3 u0 Hu0) as (e & He & X). exists e. split; [right; exact He|exact X].
      * destruct IHQ as (D1 & D2 & D3).
        assert (G3 : gt (fst u) (fst t) = true).
        { destruct (gt_total _ _ HO (fst t) (fst u) Ot Ou) as [E|[E|E]]; [|change (gt (fst t) (fst u) = true) in E; congruence|exact E]. rewrite E, (proj2 (ueqb_iff _ _) eq_refl) in G2. discriminate. }
        split; [|split].
        -- apply (desc_cons gt). split; [exact D1|]. apply Forall_forall. intros e He. cbn [fst ucrt_r].
           destruct (D2 e He) as [(t0 & Ht0 & ->)|(u0 & Hu0 & ->)].
           ++ destruct Ht0 as [<-|Ht0]; [exact G3|]. rewrite Forall_forall in Gt, AP'.
              apply (gt_trans _ _ HO (fst u) (fst t) (fst t0) Ou Ot (AP' t0 Ht0) G3 (Gt t0 Ht0)).
           ++ rewrite Forall_forall in Gu. apply Gu, Hu0.
        -- intros e [<-|He]; [right; exists u; split; [left|]; reflexivity|].
           destruct (D2 e He) as [X|(u0 & Hu0 & X)]; [left; exact X|right; exists u0; split; [right; exact Hu0|exact X]].
        -- intros u0 [<-|Hu0]; [eexists; split; [left; reflexivity|reflexivity]|].
           destruct (D3 u0 Hu0) as (e & He & X). exists e. split; [right; exact He|exact X].
Qed.

Section Loop.
Variable ps : nat -> pmod.
Hypothesis Hps : forall i, prime (pm (ps i)).
Variable F G : upz.
Variable lc cg : Z.
Hypothesis NF : norm F.
Hypothesis NG : norm G.
Hypothesis SF : udeg F < maxdeg.
Hypothesis SG : udeg G < maxdeg.
Hypothesis Dlc : match F with t :: _ => (lc | snd t) | [] => True end.
Hypothesis Ncg : cg <> 0.

Definition ucrt_res (R : upz) : Prop := norm R /\ exists H d, graw R == rmul K H (rconst cg) /\ H %| graw F /\ H %| graw G /\
  deg_is K H 0%N d /\ forall D, D %| graw F -> D %| graw G -> deg_le K D 0%N d.

Lemma usymm1_ok (p : Z) (Hp : modulus p) (Q : list (Z * zpc p)) : normal uok (m_gt uniS) (Zpc p Hp) Q ->
  norm (map (fun t => (fst t, symm1 p (proj1_sig (snd t)))) Q).
Proof.
  intros (N1 & N2 & N3). split; [|split].
  - unfold all_ok. rewrite Forall_map. exact N1.
  - unfold desc. rewrite map_map. exact N2.
  - unfold nonzero. rewrite Forall_map. eapply Forall_impl; [|exact N3]. intros [m c] Nc. cbn [snd] in *. pose proof (zpc_res p c) as R. unfold residue in R.
    assert (proj1_sig c <> 0). { intros X. apply Nc, zpc_eq. rewrite X. cbn [c0 Zpc]. rewrite v_of. symmetry. apply Z.mod_0_l, (p_nz p Hp). }
    unfold symm1. rewrite Z.rem_small by lia. destruct (proj1_sig c >? p ÷ 2); cbn; lia.
Qed.

Lemma ucrt_loop_ok n : forall i M d P R, norm P -> ucrt_loop ps n F G lc cg i M d P = Ok R -> ucrt_res R.
Proof.
  induction n as [|n IH]; intros i M d P R NP E; cbn [ucrt_loop] in E; [discriminate|].
  destruct F as [|tf rf] eqn:Ef; [discriminate|]. destruct G as [|tg rg] eqn:Eg; [discriminate|]. rewrite <- Ef, <- Eg in *.
  set (p := pm (ps i)) in *. set (Hp := pm_ok (ps i)) in *. pose proof (Hps i) as Pr. fold p in Pr.
  destruct ((Z.rem (snd tf) p =? 0) || (Z.rem (snd tg) p =? 0)) eqn:Eb; [apply (IH _ _ _ _ _ NP E)|].
  apply orb_false_iff in Eb as [Hf Hg']. apply Z.eqb_neq in Hf, Hg'.
  match type of E with obind ?r _ = _ => destruct r as [[[Q d']|]| | |] eqn:Er; try discriminate; cbn [obind] in E end; [|apply (IH _ _ _ _ _ NP E)].
  pose proof (Zpc_field p Hp Pr) as HFp. pose proof (field_domain _ HFp) as HDp. pose proof (domain_ring _ HDp) as HKp.
  destruct (upmod_ok p Hp Pr F NF) as [NFp RFp]. destruct (upmod_ok p Hp Pr G NG) as [NGp RGp].
  assert (UdF : udeg (p_mod (Zpc p Hp) (zpc_of p Hp) F) = udeg F) by (rewrite Ef, (upmod_head p Hp Pr tf rf Hf); reflexivity).
  assert (UdG : udeg (p_mod (Zpc p Hp) (zpc_of p Hp) G) = udeg G) by (rewrite Eg, (upmod_head p Hp Pr tg rg Hg'); reflexivity).
  assert (NLc : zpc_of p Hp lc <> c0 (Zpc p Hp)).
  { apply phi_nz. intros X. apply Hf. assert (Pp : p <> 0) by (clear - Hp; unfold modulus in Hp; lia).
    apply Z.rem_divide in X; [|exact Pp]. apply Z.rem_divide; [exact Pp|]. apply (Z.divide_trans _ _ _ X Dlc). }
  apply (umod_gcd_ok p Hp Pr) in Er as (NQ & Qne & DQ & Bd & IQ); [|exact NGp|exact NFp|rewrite UdG; exact SG|rewrite UdF; exact SF|exact NLc].
  assert (UD : forall D, D %| graw F -> D %| graw G -> deg_le K D 0%N (Z.to_N d')).
  { pose proof NF as NF'. pose proof NG as NG'. rewrite Ef in NF', IQ |- *. rewrite Eg in NG', IQ |- *.
    apply (umod_degree p Hp Pr tf rf tg rg d' NF' NG' Hf). intros D D1 D2. rewrite <- DQ. apply (udvd_deg p Hp Pr Q D NQ Qne).
    apply (proj2 (proj2 IQ)); assumption. }
  destruct (d' <? d) eqn:Ed.
  { apply (IH _ _ _ _ _ (usymm1_ok p Hp Q NQ) E). }
  apply Z.ltb_ge in Ed. assert (d' = d) as D' by lia. clear Ed. rewrite D' in DQ, UD, Bd. clear D' d'.
  destruct (zp_inv p (M mod p)) as [inv| | |]; try discriminate. cbn [obind] in E.
  set (M' := M * p) in *. set (W := ucrt_merge inv M P Q) in *. set (T := map (fun t => (fst t, symm2 M' (snd t))) W) in *.
  destruct (ucrt_spec inv M P Q (proj1 NP) (proj1 (proj2 NP)) (proj1 NQ) (proj1 (proj2 NQ))) as (W1 & W2 & W3). fold W in W1, W2, W3.
  destruct (existsb (fun t => snd t =? 0) T) eqn:Ez; [discriminate|].
  assert (NT : norm T).
  { split; [|split].
    - unfold all_ok, T. rewrite Forall_map. apply Forall_forall. intros e He. cbn [fst].
      destruct (W2 e He) as [(t & Ht & ->)|(u & Hu & ->)]; [apply (unin K P t NP Ht)|apply (unin _ Q u NQ Hu)].
    - unfold desc, T. rewrite map_map. exact W1.
    - apply Forall_forall. intros e He Z0. rewrite <- not_true_iff_false in Ez. apply Ez. apply existsb_exists. exists e. split; [exact He|].
      rewrite Z0. reflexivity. }
  destruct (pv_equal_to (m_eq uniS) K T P) eqn:Et; [|apply (IH _ _ _ _ _ NT E)].
  apply (pv_equal_to_spec (m_eq uniS) K ueqb_iff HK) in Et.
  (* a term of degree d *)
  destruct Q as [|u rq]; [congruence|]. cbn [udeg] in DQ. destruct (W3 u (or_introl eq_refl)) as (e & He & Ee).
  set (e' := (fst e, symm2 M' (snd e))). assert (Ie : In e' T) by (apply (in_map (fun t => (fst t, symm2 M' (snd t)))), He).
  assert (De : fst e' = d) by (cbn [e' fst]; rewrite Ee; exact DQ).
  assert (Tne : T <> []) by (intros X; rewrite X in Ie; destruct Ie).
  destruct (Z.ltb_spec 0 d) as [Pd|Pd].
  - rewrite <- Et in E. pose proof (ucont_ok T NT Tne) as (Fc & Dc & Uc). pose proof (ucont_nz T NT Tne) as Nc. set (c := ucont T) in *.
    assert (NzT : ~ graw T == r0) by (apply (unz K HD T NT), Tne).
    destruct (udiv n T [(0, c)]) as [H| | |] eqn:Eh; try discriminate. cbn [obind] in E.
    apply udiv_ok in Eh as [NH EH]; [|exact NT|apply const_norm, Nc|discriminate|apply (rdivides_proper K HD _ _ (const_graw c) _ _ (reflexivity _)), Dc].
    rewrite (const_graw c) in EH.
    assert (NzH : ~ graw H == r0) by (intros X; apply NzT; rewrite EH, X; ring).
    assert (Nzc : ~ rconst c == r0) by (intros X; apply NzT; rewrite EH, X; ring).
    assert (Hne : H <> []) by (apply (unz K HD H NH), NzH).
    destruct (udivrem n F H) as [[Q1 R1]| | |] eqn:E1; try discriminate. cbn [obind] in E.
    destruct R1 as [|r1 R1]; [|apply (IH _ _ _ _ _ NH E)].
    destruct (udivrem n G H) as [[Q2 R2]| | |] eqn:E2; try discriminate. cbn [obind] in E.
    destruct R2 as [|r2 R2]; [|apply (IH _ _ _ _ _ NH E)].
    destruct (udivrem_ok n F H Q1 NF NH Hne E1) as [_ EQ1]. destruct (udivrem_ok n G H Q2 NG NH Hne E2) as [_ EQ2].
    destruct (umul_ok H [(0, cg)] R NH (const_norm cg Ncg) E) as [NR ER]. rewrite (const_graw cg) in ER. split; [exact NR|]. exists (graw H).
    destruct (deg_exists K HD (graw H) 0%N) as [dH DH]. exists dH. split; [exact ER|]. split; [exists (graw Q1); exact EQ1|]. split; [exists (graw Q2); exact EQ2|].
    split; [exact DH|]. intros D D1 D2. apply (deg_le_weak K D 0%N (Z.to_N d) dH); [|apply UD; assumption].
    destruct (deg_exists K HD (rconst c) 0%N) as [dc Hdc].
    assert (dc = 0%N) as ->. { apply (deg_is_unique K (rconst c) 0%N); [exact Hdc|]. split; [apply (deg_free K), Fc|left; reflexivity]. }
    pose proof (deg_is_mul K HD HG _ _ 0%N _ _ NzH Nzc DH Hdc) as [LT _]. rewrite N.add_0_r in LT.
    pose proof (uin_coef K HD T e' NT Ie) as Se. pose proof (unin K T e' NT Ie) as [_ Ne]. rewrite <- Se in Ne. rewrite (EH _) in Ne. specialize (LT _ Ne).
    rewrite exp_usm, De in LT. exact LT.
  - injection E as <-. split; [apply const_norm, Ncg|]. exists (r1 K), 0%N. split; [rewrite const_graw; ring|]. split; [apply (rd_1 K HD)|]. split; [apply (rd_1 K HD)|].
    assert (d = 0) as D0 by lia.
    rewrite D0 in UD. split; [|exact UD]. split; [|left; reflexivity]. apply (deg_free K), (vfree_const K).
Qed.
End Loop.
