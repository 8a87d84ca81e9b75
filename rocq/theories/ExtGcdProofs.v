(** * The extended gcd modulo a prime and over the integers (ExtGcd.v). *)
From Coq Require Import Ring_theory Ring Setoid Morphisms Znumtheory Sorting.Sorted.
From Verif Require Import Prelude Coef Spec SpecProofs SpecOps SpecOpsProofs GcdDom GcdPoly GcdMath OrderSpec PairVec PairVecProofs
  Mono MonoStruct MonoStructProofs Heap Poly PolyMulProofs PolyCmpProofs Div PolyDivProofs PolyOps PolyOpsGen ConvertProofs GcdHom GcdRep Zp NumSpec ZpProofs
  Gcd GcdTerm GcdProofs Dense DenseWord DensePoly DenseMul DenseDiv DenseSparse UGcd UGcdBase UGcdProofs UGcdMod ExtGcd.
Local Open Scope Z_scope.

Section Dom.
Context {C : Type} (K : coefs C) (HD : domain_ok K) (srt : list (Z * C) -> list (Z * C)).
Let HK : ring_ok K := domain_ring K HD.
Local Existing Instance HK.
Add Ring Cring : (ring_laws K HK).
Add Ring Rring : (rring K HK) (setoid (req_equiv K) (rring_ext K HK)).
Notation norm := (normal uok (m_gt uniS) K).
Notation graw := (graw usm).
Notation "a == b" := (req K a b) (at level 70).

Lemma unorma_id (p : list (Z * C)) : norm p -> unorma K srt p = p.
Proof. intros N. apply (normalization_id uok (m_gt uniS) (m_eq uniS) K (ms_order uniS uok usm uniS_ok) (ms_eq uniS uok usm uniS_ok) HK srt p N). Qed.
Lemma uscale_spec (F : list (Z * C)) c : norm F -> c <> c0 K ->
  norm (uscale K srt c F) /\ graw (uscale K srt c F) == rmul K (rconst c) (graw F) /\ uscale K srt c F = map (fun t => (fst t, cmul K (snd t) c)) F.
Proof.
  intros N Nc.
  assert (N' : norm (map (fun t => (fst t, cmul K (snd t) c)) F)).
  { destruct N as (N1 & N2 & N3). split; [|split].
    - unfold all_ok. rewrite Forall_map. exact N1.
    - unfold desc. rewrite map_map. exact N2.
    - unfold nonzero. rewrite Forall_map. unfold nonzero in N3. rewrite Forall_forall in *. intros t Ht X. cbn [snd] in X.
      apply (domain_integral K HD) in X as [X|X]; [apply (N3 t Ht X)|apply (Nc X)]. }
  unfold uscale. rewrite unorma_id by exact N'. split; [exact N'|]. split; [|reflexivity].
  clear N N'. induction F as [|t F IH]; [change (r0 == rmul K (rconst c) r0); ring|].
  cbn [map]. rewrite !graw_cons. cbn [fst snd]. rewrite IH.
  assert (E1 : [(usm (fst t), cmul K (snd t) c)] == rmul K (rconst c) [(usm (fst t), snd t)]).
  { cbn [Spec.rmul flat_map map app rconst fst snd]. apply (req_single K); [reflexivity|]. pose proof (ring_laws K HK) as RL. apply (Rmul_comm RL). }
  rewrite E1. ring.
Qed.
Lemma ustep_spec (q s0 s1 : list (Z * C)) : norm q -> norm s0 -> norm s1 ->
  exists s2, ustep K srt q s0 s1 = Ok s2 /\ norm s2 /\ graw s2 == rsub K (graw s0) (rmul K (graw q) (graw s1)).
Proof.
  intros Nq N0 N1. unfold ustep. destruct (p_mul_ok uniS uok usm K uniS_ok HK HD nohook2 q s1) as (m & E & Nm & Em); [split; exact I|assumption..|].
  rewrite E. cbn [obind]. assert (N2 : norm (p_sub uniS K s0 m)) by (apply (p_sub_normal uniS uok usm K uniS_ok HK); assumption).
  eexists. split; [reflexivity|]. rewrite unorma_id by exact N2. split; [exact N2|]. rewrite (p_sub_req uniS uok usm K uniS_ok HK), Em. reflexivity.
Qed.
Lemma uone_norm : norm [(0, c1 K)].
Proof. split; [repeat constructor; unfold uok; cbn; lia|]. split; [repeat constructor|]. repeat constructor. apply (domain_nontrivial K HD). Qed.
Lemma uone_req : graw [(0, c1 K)] == r1 K.
Proof. apply (req_single K); [|reflexivity]. intros v. rewrite exp_usm. destruct (N.eqb 0 v); reflexivity. Qed.
Lemma unil_norm : norm []. Proof. split; constructor; constructor. Qed.
(** irreducible by the leading term: smaller degree *)
Lemma irr_deg (g : Z * C) (R : list (Z * C)) : norm R -> 0 <= fst g -> Forall (fun t => ~ mdivides (usm (fst g)) (usm (fst t))) R -> R <> [] -> udeg R < fst g.
Proof.
  intros N G I Ne. destruct R as [|t r]; [congruence|]. cbn [udeg]. apply Forall_inv in I.
  destruct (unin K _ t N (or_introl eq_refl)) as [Ot _]. destruct (Z.lt_ge_cases (fst t) (fst g)) as [L|L]; [exact L|]. exfalso. apply I.
  intros v. rewrite !exp_usm. destruct (N.eqb 0 v); lia.
Qed.
End Dom.

Section Zp.
Context (p : Z) (Hp : modulus p) (Pr : prime p) (srt : list (Z * zpc p) -> list (Z * zpc p)).
Notation K := (Zpc p Hp).
Let HF : field_ok K := Zpc_field p Hp Pr.
Let HD : domain_ok K := field_domain K HF.
Let HK : ring_ok K := domain_ring K HD.
Local Existing Instance HK.
Add Ring Cring : (ring_laws K HK).
Add Ring Rring : (rring K HK) (setoid (req_equiv K) (rring_ext K HK)).
Notation norm := (normal uok (m_gt uniS) K).
Notation graw := (graw usm).
Notation "a == b" := (req K a b) (at level 70).
Notation "a %| b" := (rdivides K a b) (at level 70).

Lemma uext_loop_ok A B n : forall r0 r1 s0 s1 t0 t1, (r1 <> [] -> udeg r1 < Z.of_nat n) ->
  norm r0 -> norm r1 -> norm s0 -> norm s1 -> norm t0 -> norm t1 -> r0 <> [] ->
  graw r0 == radd (rmul K (graw s0) A) (rmul K (graw t0) B) -> graw r1 == radd (rmul K (graw s1) A) (rmul K (graw t1) B) ->
  exists r s t, (exists fuel0, forall fuel, (fuel0 <= fuel)%nat -> uext_loop p Hp srt fuel r0 r1 s0 s1 t0 t1 = Ok (r, s, t)) /\
    norm r /\ norm s /\ norm t /\ r <> [] /\ graw r == radd (rmul K (graw s) A) (rmul K (graw t) B) /\ graw r %| graw r0 /\ graw r %| graw r1.
Proof.
  induction n as [|n IH]; intros r0 r1 s0 s1 t0 t1 Hn N0 N1 M0 M1 L0 L1 Ne E0 E1.
  - destruct r1 as [|g r1].
    + exists r0, s0, t0. split; [exists 0%nat; intros [|f] _; reflexivity|]. repeat (split; [assumption|]).
      split; [apply (rd_refl K HD)|]. change (graw r0 %| @Spec.r0 _). apply (rd_0 K HD).
    + exfalso. specialize (Hn ltac:(discriminate)). cbn [udeg] in Hn. pose proof (unin K _ g N1 (or_introl eq_refl)). lia.
  - destruct r1 as [|g r1].
    + exists r0, s0, t0. split; [exists 0%nat; intros [|f] _; reflexivity|]. repeat (split; [assumption|]).
      split; [apply (rd_refl K HD)|]. change (graw r0 %| @Spec.r0 _). apply (rd_0 K HD).
    + set (G := g :: r1) in *.
      destruct (p_div_rem_ok uniS uok usm K uniS_ok HK HF nohook2 r0 G g r1 I N0 N1 eq_refl) as (Q & R & (NQ & NR & IR & ER) & f1 & T1).
      destruct (ustep_spec K HD srt Q s0 s1 NQ M0 M1) as (s2 & Es & Ns & Rs).
      destruct (ustep_spec K HD srt Q t0 t1 NQ L0 L1) as (t2 & Et & Nt & Rt).
      assert (ER' : graw R == rsub K (graw r0) (rmul K (graw Q) (graw G))) by (rewrite ER; ring).
      destruct (IH G R s1 s2 t1 t2) as (r & s & t & (f2 & T2) & NN & NS & NT & Nr & EE & D0 & D1); try assumption.
      * intros Rne. pose proof (irr_deg K srt g R NR) as X. specialize (Hn ltac:(discriminate)). cbn [udeg G] in Hn.
        pose proof (unin K _ g N1 (or_introl eq_refl)) as [Og _]. specialize (X Og IR Rne). lia.
      * discriminate.
      * rewrite ER', Rs, Rt, E0, E1. ring.
      * exists r, s, t. split.
        { exists (Datatypes.S (f1 + f2)). intros [|f] Hf; [lia|]. cbn [uext_loop]. unfold G at 1.
          rewrite T1 by lia. cbn [obind]. rewrite Es. cbn [obind]. rewrite Et. cbn [obind]. apply T2. lia. }
        repeat (split; [assumption|]). split; [|exact D0].
        apply (rdivides_proper K HD _ _ (reflexivity _) _ _ ER). apply (rd_add K HD); [apply (rd_mull K HD), D0|exact D1].
Qed.
Theorem uzp_ext_ok F G : norm F -> norm G -> F <> [] -> G <> [] ->
  exists r s t, (exists fuel0, forall fuel, (fuel0 <= fuel)%nat -> uzp_ext p Hp srt fuel F G = Ok (r, s, t)) /\
    norm r /\ norm s /\ norm t /\ (exists m l, r = (m, c1 K) :: l) /\
    graw r == radd (rmul K (graw s) (graw F)) (rmul K (graw t) (graw G)) /\ graw r %| graw F /\ graw r %| graw G.
Proof.
  intros NF NG Fn Gn.
  destruct (uext_loop_ok (graw F) (graw G) (Datatypes.S (Z.to_nat (udeg G))) F G (uone p Hp) [] [] (uone p Hp)) as (r & s & t & (f & T) & Nr & Ns & Nt & Rne & E & D1 & D2);
    try assumption; try apply (uone_norm K HD); try apply unil_norm.
  { intros _. lia. }
  { rewrite (uone_req K). change (graw []) with (@Spec.r0 (zpc p)). ring. }
  { rewrite (uone_req K). change (graw []) with (@Spec.r0 (zpc p)). ring. }
  destruct r as [|[m c] l]; [congruence|].
  assert (Nc : c <> c0 K) by (apply (unin K _ (m, c) Nr (or_introl eq_refl))).
  assert (Hi : exists i, inv_prime (proj1_sig c) p = Ok i).
  { pose proof (zpc_res p c) as Rc. unfold residue in Rc.
    assert (Nv : proj1_sig c <> 0). { intros X. apply Nc. apply zpc_eq. rewrite X. cbn [c0 Zpc]. rewrite v_of. symmetry. apply Z.mod_0_l, (p_nz p Hp). }
    destruct (inv_prime_ok p (proj1_sig c) Hp ltac:(lia)) as (i & Ei & _); [|exists i; exact Ei].
    apply Zgcd_1_rel_prime, rel_prime_sym. apply prime_rel_prime; [exact Pr|]. intros [q Eq]. assert (0 < q) by nia. nia. }
  destruct Hi as [i Ei]. pose proof (inv_one p Hp Pr c i Ei Nc) as Eone.
  assert (Ei' : zp_inv p (proj1_sig c) = Ok i) by (rewrite <- zp_inv_prime; exact Ei).
  set (k := zpc_of p Hp i) in *.
  assert (Nk : k <> c0 K). { intros X. apply (domain_nontrivial K HD). rewrite <- Eone, X. ring. }
  destruct (uscale_spec K HD srt ((m, c) :: l) k Nr Nk) as (A1 & A2 & A3).
  destruct (uscale_spec K HD srt s k Ns Nk) as (B1 & B2 & _).
  destruct (uscale_spec K HD srt t k Nt Nk) as (C1 & C2 & _).
  exists (uscale K srt k ((m, c) :: l)), (uscale K srt k s), (uscale K srt k t).
  assert (U : rmul K (rconst c) (rconst k) == r1 K) by (rewrite (rconst_mul K), Eone; reflexivity).
  split; [|split; [exact A1|split; [exact B1|split; [exact C1|split]]]].
  - exists f. intros fuel Hf. unfold uzp_ext. destruct F as [|tf F]; [congruence|]. destruct G as [|tg G]; [congruence|]. rewrite T by exact Hf. cbn [obind].
    change (snd (m, c)) with c. rewrite Ei'. reflexivity.
  - rewrite A3. cbn [map fst snd]. rewrite Eone. eauto.
  - split; [rewrite A2, B2, C2, E; ring|].
    split; (apply (rd_trans K HD _ (graw ((m, c) :: l))); [|assumption]); exists (rconst c); rewrite A2;
      transitivity (rmul K (rmul K (rconst c) (rconst k)) (graw ((m, c) :: l))); [rewrite U; ring|ring|rewrite U; ring|ring].
Qed.
End Zp.
