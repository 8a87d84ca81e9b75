(** * The multivariate gcd over the integers (Gcd.v): whatever primes and points are drawn, a returned value is a greatest common divisor. *)
From Coq Require Import Ring_theory Ring Setoid Morphisms Znumtheory.
From Verif Require Import Prelude Coef Spec SpecProofs SpecOps SpecOpsProofs GcdDom GcdPoly GcdMath OrderSpec PairVec PairVecProofs
  Mono MonoProofs MonoStruct MonoStructProofs Heap Poly PolyMulProofs Div PolyDivProofs PolyOps MonoOpsProofs PolyOpsGen PolyOpsProofs
  PolyOps2Proofs ConvertProofs PolyOps3Proofs Groebner Zp NumSpec ZpProofs Gcd GcdHom GcdLex GcdZpProofs GcdCont GcdRep GcdTerm.
Local Open Scope Z_scope.

(** ** Coefficient maps *)
Section Map.
Context {C1 C2 : Type} (K1 : coefs C1) (K2 : coefs C2) (HK1 : ring_ok K1) (HK2 : ring_ok K2) (phi : C1 -> C2).
Hypothesis P0 : phi (c0 K1) = c0 K2.
Hypothesis PA : forall a b, phi (cadd K1 a b) = cadd K2 (phi a) (phi b).
Hypothesis PM : forall a b, phi (cmul K1 a b) = cmul K2 (phi a) (phi b).
Definition rmapc (p : rpoly C1) : rpoly C2 := map (fun t => (fst t, phi (snd t))) p.
Lemma coef_rmapc p s : coef K2 (rmapc p) s = phi (coef K1 p s).
Proof.
  induction p as [|[m c] p IH]; [symmetry; exact P0|]. cbn [rmapc map Spec.coef fst snd]. fold (rmapc p). rewrite IH.
  destruct (meqb m s); [rewrite PA|]; reflexivity.
Qed.
Lemma rmapc_proper p q : req K1 p q -> req K2 (rmapc p) (rmapc q).
Proof. intros E s. rewrite !coef_rmapc, (E s). reflexivity. Qed.
Lemma rmapc_mul p q r : req K1 r (rmul K1 p q) -> req K2 (rmapc r) (rmul K2 (rmapc p) (rmapc q)).
Proof.
  intros E. transitivity (rmapc (rmul K1 p q)); [apply rmapc_proper, E|].
  assert (X : rmapc (rmul K1 p q) = rmul K2 (rmapc p) (rmapc q)); [|rewrite X; reflexivity].
  unfold rmul, rmapc. clear E. induction p as [|t p IH]; [reflexivity|]. cbn [flat_map map fst snd]. rewrite map_app. apply f_equal2; [|exact IH].
  rewrite !map_map. apply map_ext. intros u. cbn [fst snd]. rewrite PM. reflexivity.
Qed.
Lemma rmapc_deg p x d : deg_le K1 p x d -> deg_le K2 (rmapc p) x d.
Proof. intros L m Hm. apply L. intros E. apply Hm. rewrite coef_rmapc, E. exact P0. Qed.
Lemma rmapc_rcoeff x n p : req K2 (rmapc (rcoeff K1 x n p)) (rcoeff K2 x n (rmapc p)).
Proof.
  intros s. rewrite coef_rmapc, (coef_rcoeff K1 HK1), (coef_rcoeff K2 HK2), coef_rmapc. destruct (N.eqb (exp s x) 0); [reflexivity|exact P0].
Qed.
Lemma rmapc_dvd d p : rdivides K1 d p -> rdivides K2 (rmapc d) (rmapc p).
Proof. intros [q E]. exists (rmapc q). apply rmapc_mul, E. Qed.
End Map.

(** ** the image modulo a prime *)
Section Mod.
Context (vo : vorder) (Hvo : vorder_ok vo) (p : Z) (Hp : modulus p) (Pr : prime p).
Notation K := (Zpc p Hp).
Notation phi := (zpc_of p Hp).
Let HF : field_ok K := Zpc_field p Hp Pr.
Let HD : domain_ok K := field_domain K HF.
Let HK : ring_ok K := domain_ring K HD.
Let HDz : domain_ok Zc := Zc_domain.
Let HKz : ring_ok Zc := domain_ring Zc HDz.
Notation gt := (lex_gt vo).
Notation normZ := (normal (mok vo) gt Zc).
Notation normP := (normal (mok vo) gt K).
Let M1 := lexS_ok vo Hvo.

Lemma phi_0 : phi 0 = c0 K. Proof. reflexivity. Qed.
Lemma phi_add a b : phi (a + b) = cadd K (phi a) (phi b).
Proof. apply zpc_eq. change (cadd K (phi a) (phi b)) with (zpc_add p Hp (phi a) (phi b)). rewrite v_add, !v_of. apply Zplus_mod. Qed.
Lemma phi_mul a b : phi (a * b) = cmul K (phi a) (phi b).
Proof. apply zpc_eq. change (cmul K (phi a) (phi b)) with (zpc_mul p Hp (phi a) (phi b)). rewrite v_mul, !v_of. apply Zmult_mod. Qed.
Lemma phi_nz a : Z.rem a p <> 0 -> phi a <> c0 K.
Proof.
  intros H E. apply H. apply (f_equal (@proj1_sig _ _)) in E. rewrite v_of in E. change (proj1_sig (c0 K)) with (0 mod p) in E.
  unfold modulus in Hp. rewrite Z.mod_0_l in E by lia. apply Z.mod_divide in E; [|lia]. apply Z.rem_divide; [lia|exact E].
Qed.
Notation pmod := (p_mod K phi).
Lemma pmod_ok (F : poly Z) : normZ F -> normP (pmod F) /\ req K (graw sm (pmod F)) (rmapc phi (graw sm F)).
Proof.
  intros N. destruct (mod_spec (lexS vo) (mok vo) sm M1 Zc K HKz HK phi phi_0 F N) as [A B]. split; [exact A|].
  intros s. rewrite (B s). symmetry. apply (coef_rmapc Zc K phi phi_0 phi_add).
Qed.
Lemma pmod_vars P (F : poly Z) : vars_P P F -> vars_P P (pmod F).
Proof.
  intros V. apply Forall_forall. intros t Ht. unfold p_mod in Ht. apply in_flat_map in Ht as (u & Hu & Ht).
  destruct (is0 K (phi (snd u))); [destruct Ht|]. destruct Ht as [<-|[]]. cbn [fst]. unfold vars_P in V. rewrite Forall_forall in V. apply (V u Hu).
Qed.
Lemma pmod_first t (r : poly Z) : Z.rem (snd t) p <> 0 -> first_var (pmod (t :: r)) = first_var (t :: r) /\ first_deg (pmod (t :: r)) = first_deg (t :: r).
Proof.
  intros H. unfold p_mod. cbn [flat_map]. destruct (is0_spec K HK (phi (snd t))) as [E|E]; [exfalso; apply (phi_nz _ H E)|]. split; reflexivity.
Qed.

(** degrees of common divisors *)
Lemma mod_degree x tf rf tg rg (Q : poly (zpc p)) d :
  let F := tf :: rf in let G := tg :: rg in
  normZ F -> normZ G -> x <> 0%N -> first_var F = x -> Z.rem (snd tf) p <> 0 ->
  (forall D, rdivides K D (graw sm (pmod F)) -> rdivides K D (graw sm (pmod G)) -> deg_le K D x (Z.to_N d)) ->
  forall D, rdivides Zc D (graw sm F) -> rdivides Zc D (graw sm G) -> deg_le Zc D x (Z.to_N d).
Proof.
  intros F G NF NG Nx EF Hf U D DF DG.
  destruct (pmod_ok F NF) as [NF' RF]. destruct (pmod_ok G NG) as [NG' RG]. destruct (pmod_first tf rf Hf) as [V1 D1]. fold F in V1, D1.
  destruct (first_spec vo Hvo Zc HDz F x NF EF Nx) as (t & r & Ef & _ & _ & _ & _ & Dg).
  destruct (first_spec vo Hvo K HD (pmod F) x NF' (eq_trans V1 EF) Nx) as (t' & r' & Ef' & _ & _ & _ & _ & Dg'). rewrite D1 in Dg'.
  apply (hom_deg Zc K HDz Z_cgcd HD (field_cgcd K HF) (rmapc phi)) with (F := graw sm F) (e := Z.to_N (first_deg F)).
  - intros a b c. apply (rmapc_mul Zc K phi phi_0 phi_add phi_mul).
  - intros a n. apply (rmapc_deg Zc K phi phi_0 phi_add).
  - apply (nz_iff vo Hvo Zc HDz F NF). rewrite Ef. discriminate.
  - intros E. refine (proj1 (nz_iff vo Hvo K HD (pmod F) NF') _ _); [rewrite Ef'; discriminate|]. rewrite RF. exact E.
  - exact Dg.
  - destruct Dg' as [B1 B2]. split.
    + intros m Hm. apply B1. rewrite (RF m). exact Hm.
    + destruct B2 as [B2|(m & Hm & B2)]; [left; exact B2|right]. exists m. rewrite <- (RF m). auto.
  - exact DF.
  - apply U.
    + apply (rdivides_proper K HD _ _ (reflexivity _) _ _ RF), (rmapc_dvd Zc K phi phi_0 phi_add phi_mul), DF.
    + apply (rdivides_proper K HD _ _ (reflexivity _) _ _ RG), (rmapc_dvd Zc K phi phi_0 phi_add phi_mul), DG.
Qed.
Lemma mod_pre_ok x tf rf tg rg (Lc : poly Z) :
  let F := tf :: rf in let G := tg :: rg in
  normZ F -> normZ G -> normZ Lc -> x <> 0%N -> first_var F = x -> first_var G = x -> Z.rem (snd tf) p <> 0 -> Z.rem (snd tg) p <> 0 ->
  rdivides Zc (graw sm Lc) (rcoeff Zc x (Z.to_N (first_deg F)) (graw sm F)) ->
  mod_pre vo K x (pmod F) (pmod G) (pmod Lc).
Proof.
  intros F G NF NG NL Nx EF EG Hf Hg HL.
  destruct (pmod_ok F NF) as [NF' RF]. destruct (pmod_ok G NG) as [NG' RG]. destruct (pmod_ok Lc NL) as [NL' RL].
  destruct (pmod_first tf rf Hf) as [V1 D1]. destruct (pmod_first tg rg Hg) as [V2 D2]. fold F in V1, D1. fold G in V2, D2.
  split; [exact NF'|]. split; [exact NG'|]. split; [exact NL'|]. split; [exact Nx|]. split; [congruence|]. split; [congruence|].
  rewrite D1. apply (rdivides_proper K HD _ _ RL _ (rmapc phi (rcoeff Zc x (Z.to_N (first_deg F)) (graw sm F)))).
  - rewrite (rmapc_rcoeff Zc K HKz HK phi phi_0 phi_add). apply (rcoeff_proper K HK x). exact RF.
  - apply (rmapc_dvd Zc K phi phi_0 phi_add phi_mul), HL.
Qed.
End Mod.

Section PG.
Context (vo : vorder) (Hvo : vorder_ok vo).
Notation K := Zc.
Let HD : domain_ok K := Zc_domain.
Let HK : ring_ok K := domain_ring K HD.
Let HG : cgcd_ok K := Z_cgcd.
Local Existing Instance HK.
Add Ring Rring : (rring K HK) (setoid (req_equiv K) (rring_ext K HK)).
Notation S := (lexS vo).
Notation gt := (lex_gt vo).
Notation norm := (normal (mok vo) gt K).
Notation graw := (graw sm).
Notation poly := (poly Z).
Notation good := (good vo).
Notation "a == b" := (req K a b) (at level 70).
Notation "a %| b" := (rdivides K a b) (at level 70).
Let M1 := lexS_ok vo Hvo.
Let HO := ms_order S (mok vo) sm M1.

(** ** the merge of the CRT step *)
Lemma crt_spec {p} (inv M : Z) (P : poly) : forall Q : Mono.poly (zpc p), Forall (fun t => mok vo (fst t)) P -> desc gt P ->
  Forall (fun t => mok vo (fst t)) Q -> desc gt Q ->
  let W := crt_merge vo inv M P Q in
  desc gt W /\
  (forall e, In e W -> (exists t, In t P /\ fst e = fst t) \/ (exists u, In u Q /\ fst e = fst u)) /\
  (forall u, In u Q -> exists e, In e W /\ fst e = fst u).
Proof.
  induction P as [|t P IH]; intros Q AP DP AQ DQ W.
  - subst W. cbn [crt_merge]. split; [|split].
    + unfold desc. rewrite map_map. exact DQ.
    + intros e He. apply in_map_iff in He as (u & <- & Hu). right. exists u. auto.
    + intros u Hu. exists (crt_r inv M u). split; [apply in_map, Hu|reflexivity].
  - pose proof DP as DP0. apply (desc_cons gt) in DP as [DP Gt]. pose proof (Forall_inv AP) as Ot. pose proof (Forall_inv_tail AP) as AP'. cbv beta in Ot.
    induction Q as [|u Q IHQ].
    + subst W. cbn [crt_merge]. split; [|split].
      * unfold desc. rewrite map_map. exact DP0.
      * intros e He. apply in_map_iff in He as (t0 & <- & Ht0). left. exists t0. auto.
      * intros u [].
    + pose proof DQ as DQ0. apply (desc_cons gt) in DQ as [DQ Gu]. pose proof (Forall_inv AQ) as Ou. pose proof (Forall_inv_tail AQ) as AQ'. cbv beta in Ou.
      specialize (IHQ AQ' DQ). subst W. cbn [crt_merge] in *. destruct (gt (fst t) (fst u)) eqn:G1; [|destruct (mono_eqb (fst t) (fst u)) eqn:G2].
      * destruct (IH (u :: Q) AP' DP AQ DQ0) as (D1 & D2 & D3). split; [|split].
        -- apply (desc_cons gt). split; [exact D1|]. apply Forall_forall. intros e He. cbn [fst crt_l].
           destruct (D2 e He) as [(t0 & Ht0 & ->)|(u0 & Hu0 & ->)].
           ++ rewrite Forall_forall in Gt. apply Gt, Ht0.
           ++ destruct Hu0 as [<-|Hu0]; [exact G1|]. rewrite Forall_forall in Gu, AQ'.
              apply (gt_trans _ _ HO (fst t) (fst u) (fst u0) Ot Ou (AQ' u0 Hu0) G1 (Gu u0 Hu0)).
        -- intros e [<-|He]; [left; exists t; split; [left|]; reflexivity|].
           destruct (D2 e He) as [(t0 & Ht0 & X)|X]; [left; exists t0; split; [right; exact Ht0|exact X]|right; exact X].
        -- intros u0 Hu0. destruct (D3 u0 Hu0) as (e & He & X). exists e. split; [right; exact He|exact X].
      * apply mono_eqb_iff in G2. destruct (IH Q AP' DP AQ' DQ) as (D1 & D2 & D3). split; [|split].
        -- apply (desc_cons gt). split; [exact D1|]. apply Forall_forall. intros e He. cbn [fst].
           destruct (D2 e He) as [(t0 & Ht0 & ->)|(u0 & Hu0 & ->)].
           ++ rewrite Forall_forall in Gt. rewrite <- G2. apply Gt, Ht0.
           ++ rewrite Forall_forall in Gu. apply Gu, Hu0.
        -- intros e [<-|He]; [right; exists u; split; [left|]; reflexivity|].
           destruct (D2 e He) as [(t0 & Ht0 & X)|(u0 & Hu0 & X)]; [left; exists t0|right; exists u0]; (split; [right; assumption|exact X]).
        -- intros u0 [<-|Hu0]; [eexists; split; [left; reflexivity|reflexivity]|].
           destruct (D3 u0 Hu0) as (e & He & X). exists e. split; [right; exact He|exact X].
      * destruct IHQ as (D1 & D2 & D3).
        assert (G3 : gt (fst u) (fst t) = true).
        { destruct (gt_total _ _ HO (fst t) (fst u) Ot Ou) as [E|[E|E]]; [|change (gt (fst t) (fst u) = true) in E; congruence|exact E]. rewrite E, (proj2 (mono_eqb_iff _ _) eq_refl) in G2. discriminate. }
        split; [|split].
        -- apply (desc_cons gt). split; [exact D1|]. apply Forall_forall. intros e He. cbn [fst crt_r].
           destruct (D2 e He) as [(t0 & Ht0 & ->)|(u0 & Hu0 & ->)].
           ++ destruct Ht0 as [<-|Ht0]; [exact G3|]. rewrite Forall_forall in Gt, AP'.
              apply (gt_trans _ _ HO (fst u) (fst t) (fst t0) Ou Ot (AP' t0 Ht0) G3 (Gt t0 Ht0)).
           ++ rewrite Forall_forall in Gu. apply Gu, Hu0.
        -- intros e [<-|He]; [right; exists u; split; [left|]; reflexivity|].
           destruct (D2 e He) as [X|(u0 & Hu0 & X)]; [left; exact X|right; exists u0; split; [right; exact Hu0|exact X]].
        -- intros u0 [<-|Hu0]; [eexists; split; [left; reflexivity|reflexivity]|].
           destruct (D3 u0 Hu0) as (e & He & X). exists e. split; [right; exact He|exact X].
Qed.
End PG.
