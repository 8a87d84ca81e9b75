(** * The extended gcd over the integers (ExtGcd.v): the Bezout identity of the pseudo-Euclidean loops. *)
From Coq Require Import Ring_theory Ring Setoid Morphisms Znumtheory Sorting.Sorted.
From Verif Require Import Prelude Coef Spec SpecProofs SpecOps SpecOpsProofs GcdDom GcdPoly GcdMath OrderSpec PairVec PairVecProofs
  Mono MonoStruct MonoStructProofs Heap Poly PolyMulProofs PolyCmpProofs Div PolyDivProofs DivExact PolyOps PolyOpsGen ConvertProofs GcdHom GcdRep Zp NumSpec ZpProofs
  Gcd GcdTerm GcdProofs Dense DenseSparse UGcd UGcdBase UGcdProofs ExtGcd ExtGcdProofs.
Local Open Scope Z_scope.

Local Notation K := Zc.
Local Notation HD := Zc_domain.
Local Notation HG := Z_cgcd.
Local Instance HK : ring_ok K := domain_ring K Zc_domain.
Add Ring Rring : (rring K HK) (setoid (req_equiv K) (rring_ext K HK)).
Local Notation norm := (normal uok (m_gt uniS) K).
Local Notation graw := (graw usm).
Local Notation "a == b" := (req K a b) (at level 70).
Local Notation "a %| b" := (rdivides K a b) (at level 70).

Section Srt.
Variable srt : upz -> upz.

Lemma ucoef_le (p : upz) e : norm p -> (forall t, In t p -> fst t <= e) -> deg_le K (graw p) 0%N (Z.to_N e).
Proof.
  intros N H m Hm. destruct (usupp K HD p m N Hm) as (t & Ht & E). rewrite <- (E 0%N), exp_usm. cbn [N.eqb]. specialize (H t Ht). lia.
Qed.
Lemma udeg_of (p : upz) e : norm p -> deg_le K (graw p) 0%N (Z.to_N e) -> 0 <= e -> forall t, In t p -> fst t <= e.
Proof.
  intros N H He t Ht. specialize (H (usm (fst t))). rewrite (uin_coef K HD p t N Ht) in H. destruct (unin K p t N Ht) as [O1 O2]. specialize (H O2).
  rewrite exp_usm in H. cbn [N.eqb] in H. lia.
Qed.
Lemma usub_ok (a b : upz) : norm a -> norm b -> norm (p_sub uniS K a b) /\ graw (p_sub uniS K a b) == rsub K (graw a) (graw b).
Proof. intros A B. split; [apply (p_sub_normal uniS uok usm K uniS_ok HK); assumption|apply (p_sub_req uniS uok usm K uniS_ok HK)]. Qed.
Lemma uadd_ok (a b : upz) : norm a -> norm b -> norm (p_add uniS K a b) /\ graw (p_add uniS K a b) == radd (graw a) (graw b).
Proof. intros A B. split; [apply (p_add_normal uniS uok usm K uniS_ok HK); assumption|apply (p_add_req uniS uok usm K uniS_ok HK)]. Qed.
Lemma umulx (a b : upz) : norm a -> norm b -> exists c, norm c /\ graw c == rmul K (graw a) (graw b).
Proof.
  intros A B. destruct (p_mul_ok uniS uok usm K uniS_ok HK HD nohook2 a b) as (m & E & Nm & Em); [split; exact I|assumption..|]. exists m. auto.
Qed.
Lemma umono_norm e c : 0 <= e -> c <> 0 -> norm [(e, c)].
Proof. intros H Hc. split; [repeat constructor; exact H|]. split; [repeat constructor|repeat constructor; exact Hc]. Qed.
Lemma umono_mul e c e' c' : 0 <= e -> 0 <= e' -> rmul K (graw [(e, c)]) (graw [(e', c')]) == graw [(e + e', c * c')].
Proof.
  intros H H'. unfold MonoStruct.graw. cbn [map Spec.rmul flat_map app fst snd cmul Zc]. apply (req_single K); [|reflexivity].
  intros v. rewrite exp_app, !exp_usm. destruct (N.eqb 0 v); lia.
Qed.
Definition cpw (c : Z) (n : nat) : Z := Nat.iter n (Z.mul c) 1.
Lemma cpw_nz c n : c <> 0 -> cpw c n <> 0.
Proof. intros H. induction n as [|n IH]; [discriminate|]. change (cpw c (Datatypes.S n)) with (c * cpw c n). lia. Qed.

(** pseudo-division of sparse lists *)
Lemma upseudo g (r1 : upz) : norm (g :: r1) -> forall n r0, norm r0 -> (r0 <> [] -> udeg r0 - fst g + 1 <= Z.of_nat n) ->
  exists H R, norm H /\ norm R /\ irreducible_by usm g R /\
    rmul K (rconst (cpw (snd g) n)) (graw r0) == radd (rmul K (graw H) (graw (g :: r1))) (graw R).
Proof.
  intros NG. destruct (unin K _ g NG (or_introl eq_refl)) as [Og Zg]. pose proof (unorm_tl K g r1 NG) as Nb.
  assert (Irr : forall R, norm R -> (R <> [] -> udeg R < fst g) -> irreducible_by usm g R).
  { intros R NR HR. apply Forall_forall. intros t Ht. destruct R as [|t0 R]; [destruct Ht|]. specialize (HR ltac:(discriminate)). cbn [udeg] in HR.
    assert (L : fst t <= fst t0). { destruct Ht as [<-|Ht]; [lia|]. pose proof (uhead_lt K t0 R t NR Ht). lia. }
    pose proof (unin K _ t NR Ht) as [Ot _]. intros D. specialize (D 0%N). rewrite !exp_usm in D. cbn [N.eqb] in D. lia. }
  induction n as [|n IH]; intros r0 N0 Hn.
  - exists [], r0. split; [apply unil_norm|]. split; [exact N0|]. split; [apply Irr; [exact N0|]; intros X; specialize (Hn X); cbn [Z.of_nat] in Hn; lia|].
    change (rconst (cpw (snd g) 0)) with (Spec.r1 K). change (graw []) with (@Spec.r0 Z). ring.
  - pose proof (cpw_nz (snd g) n Zg) as Zn. pose proof (cpw_nz (snd g) (Datatypes.S n) Zg) as Zn'.
    destruct r0 as [|[d c] a].
    { exists [], []. split; [apply unil_norm|]. split; [apply unil_norm|]. split; [constructor|]. change (graw []) with (@Spec.r0 Z). ring. }
    destruct (unin K _ (d, c) N0 (or_introl eq_refl)) as [Od Zc0]. cbn [fst snd] in Od, Zc0.
    destruct (Z.lt_ge_cases d (fst g)) as [L|L].
    { destruct (uscale_spec K HD srt ((d, c) :: a) (cpw (snd g) (Datatypes.S n)) N0 Zn') as (A1 & A2 & A3).
      exists [], (uscale K srt (cpw (snd g) (Datatypes.S n)) ((d, c) :: a)). split; [apply unil_norm|]. split; [exact A1|]. split.
      - apply Irr; [exact A1|]. rewrite A3. cbn [map udeg fst]. auto.
      - rewrite A2. change (graw []) with (@Spec.r0 Z). ring. }
    pose proof (unorm_tl K _ _ N0) as Na.
    destruct (uscale_spec K HD srt a (snd g) Na Zg) as (A1 & A2 & A3).
    set (e := d - fst g). assert (He : 0 <= e) by (unfold e; lia).
    pose proof (umono_norm e c He Zc0) as Nx. destruct (umulx _ _ Nx Nb) as (b' & Nb' & Eb').
    destruct (usub_ok _ _ A1 Nb') as [Ns Es]. set (r := p_sub uniS K (uscale K srt (snd g) a) b') in *.
    assert (Er : rmul K (rconst (snd g)) (graw ((d, c) :: a)) == radd (rmul K (graw [(e, c)]) (graw (g :: r1))) (graw r)).
    { rewrite Es, A2, Eb'. rewrite !graw_cons. destruct g as [eg cg]. cbn [fst snd] in *.
      change [(usm d, c)] with (graw [(d, c)]). change [(usm eg, cg)] with (graw [(eg, cg)]).
      assert (X : rmul K (graw [(e, c)]) (graw [(eg, cg)]) == rmul K (rconst cg) (graw [(d, c)])).
      { rewrite (umono_mul e c eg cg He Og). unfold MonoStruct.graw. cbn [map Spec.rmul flat_map app fst snd cmul Zc rconst].
        apply (req_single K); [intros v; rewrite !exp_usm; unfold e; destruct (N.eqb 0 v); f_equal; lia|]. apply Z.mul_comm. }
      transitivity (radd (rmul K (rconst cg) (graw [(d, c)])) (rmul K (rconst cg) (graw a))); [ring|]. rewrite <- X. change (radd [(usm e, c)] (graw [])) with (graw [(e, c)]). ring. }
    assert (Dr : r <> [] -> udeg r < d).
    { intros Rne. destruct (Z.eq_dec d 0) as [E0|E0].
      - exfalso. apply (unz K HD r Ns) in Rne. apply Rne. rewrite Es.
        assert (a = []) as ->. { destruct a as [|u a]; [reflexivity|]. pose proof (uhead_lt K _ _ u N0 (or_introl eq_refl)) as X. cbn [fst] in X. lia. }
        assert (r1 = []) as ->. { destruct r1 as [|u r1]; [reflexivity|]. pose proof (uhead_lt K _ _ u NG (or_introl eq_refl)) as X. cbn [fst] in X. lia. }
        rewrite A2, Eb'. change (graw []) with (@Spec.r0 Z). ring.
      - assert (X : deg_le K (graw r) 0%N (Z.to_N (d - 1))).
        { rewrite Es. assert (Y : rsub K (graw (uscale K srt (snd g) a)) (graw b') == radd (rmul K (rconst (snd g)) (graw a)) (rmul K (rconst (-1)) (graw b'))).
          { rewrite A2. assert (O : rconst (-1) == ropp K (Spec.r1 K)) by (apply (req_single K); reflexivity). rewrite O. ring. }
          rewrite Y. apply (deg_le_add K HD).
          - apply (deg_le_weak K _ _ (0 + Z.to_N (d - 1))); [lia|]. apply (deg_le_mul K HD); [apply deg_free, (vfree_const K)|].
            apply (ucoef_le a (d - 1) Na). intros t Ht. pose proof (uhead_lt K _ _ t N0 Ht) as Q. cbn [fst] in Q. lia.
          - apply (deg_le_weak K _ _ (0 + Z.to_N (d - 1))); [lia|]. apply (deg_le_mul K HD); [apply deg_free, (vfree_const K)|]. rewrite Eb'.
            destruct r1 as [|u r1'] eqn:E1.
            + intros m Hm. exfalso. apply Hm. change (graw []) with (@Spec.r0 Z). assert (Q : rmul K (graw [(e, c)]) (@Spec.r0 Z) == @Spec.r0 Z) by ring. rewrite (Q m). reflexivity.
            + assert (P : fst g > 0). { pose proof (uhead_lt K g (u :: r1') u NG (or_introl eq_refl)). lia. }
              rewrite <- E1 in *. apply (deg_le_weak K _ _ (Z.to_N e + Z.to_N (fst g - 1))); [unfold e; lia|]. apply (deg_le_mul K HD).
              * apply (ucoef_le _ e Nx). intros t [<-|[]]. cbn [fst]. lia.
              * apply (ucoef_le _ _ Nb). intros t Ht. pose proof (uhead_lt K g r1 t NG Ht). lia. }
        destruct r as [|t r']; [congruence|]. cbn [udeg]. pose proof (udeg_of _ (d - 1) Ns X ltac:(lia) t (or_introl eq_refl)). lia. }
    destruct (IH r Ns) as (H & R & NH & NR & IR & E).
    { intros Rne. specialize (Dr Rne). specialize (Hn ltac:(discriminate)). cbn [udeg fst] in Hn. lia. }
    destruct (uscale_spec K HD srt _ (cpw (snd g) n) Nx Zn) as (B1 & B2 & _).
    destruct (uadd_ok _ _ NH B1) as [NH' EH'].
    exists (p_add uniS K H (uscale K srt (cpw (snd g) n) [(e, c)])), R. split; [exact NH'|]. split; [exact NR|]. split; [exact IR|].
    rewrite EH', B2. change (cpw (snd g) (Datatypes.S n)) with (cmul K (snd g) (cpw (snd g) n)). rewrite <- (rconst_mul K).
    transitivity (rmul K (rconst (cpw (snd g) n)) (rmul K (rconst (snd g)) (graw ((d, c) :: a)))); [ring|]. rewrite Er.
    transitivity (radd (rmul K (rmul K (rconst (cpw (snd g) n)) (graw [(e, c)])) (graw (g :: r1))) (rmul K (rconst (cpw (snd g) n)) (graw r))); [ring|]. rewrite E. ring.
Qed.

Lemma uzz_loop_ok A B n : forall r0 r1 s0 s1 t0 t1, (r1 <> [] -> udeg r1 < Z.of_nat n) ->
  norm r0 -> norm r1 -> norm s0 -> norm s1 -> norm t0 -> norm t1 -> r0 <> [] ->
  graw r0 == radd (rmul K (graw s0) A) (rmul K (graw t0) B) -> graw r1 == radd (rmul K (graw s1) A) (rmul K (graw t1) B) ->
  exists r s t, (exists fuel0, forall fuel, (fuel0 <= fuel)%nat -> uzz_loop srt fuel r0 r1 s0 s1 t0 t1 = Ok (r, s, t)) /\
    norm r /\ norm s /\ norm t /\ r <> [] /\ graw r == radd (rmul K (graw s) A) (rmul K (graw t) B) /\
    (exists c, c <> 0 /\ graw r %| rmul K (rconst c) (graw r0)) /\ (exists c, c <> 0 /\ graw r %| rmul K (rconst c) (graw r1)).
Proof.
  induction n as [|n IH]; intros r0 r1 s0 s1 t0 t1 Hn N0 N1 M0 M1 L0 L1 Ne E0 E1.
  - destruct r1 as [|g r1].
    + exists r0, s0, t0. split; [exists 0%nat; intros [|f] _; reflexivity|]. repeat (split; [assumption|]).
      split; [exists 1; split; [lia|apply (rd_mull K HD), (rd_refl K HD)]|exists 1; split; [lia|]]. apply (rd_mull K HD). change (graw r0 %| @Spec.r0 Z). apply (rd_0 K HD).
    + exfalso. specialize (Hn ltac:(discriminate)). cbn [udeg] in Hn. pose proof (unin K _ g N1 (or_introl eq_refl)). lia.
  - destruct r1 as [|g r1].
    + exists r0, s0, t0. split; [exists 0%nat; intros [|f] _; reflexivity|]. repeat (split; [assumption|]).
      split; [exists 1; split; [lia|apply (rd_mull K HD), (rd_refl K HD)]|exists 1; split; [lia|]]. apply (rd_mull K HD). change (graw r0 %| @Spec.r0 Z). apply (rd_0 K HD).
    + set (G := g :: r1) in *. destruct (unin K _ g N1 (or_introl eq_refl)) as [Og Zg].
      set (k := Z.to_nat (udeg r0 - udeg G + 1)). set (l := uext_pow (snd g) (udeg r0 - udeg G + 1)).
      assert (El : l = cpw (snd g) k) by reflexivity.
      assert (Zl : l <> 0) by (rewrite El; apply cpw_nz, Zg).
      destruct (upseudo g r1 N1 k r0 N0) as (Q & R & NQ & NR & IR & ER).
      { intros _. unfold k. cbn [udeg G]. lia. }
      destruct (uscale_spec K HD srt r0 l N0 Zl) as (A1 & A2 & _).
      destruct (uscale_spec K HD srt s0 l M0 Zl) as (S1 & S2 & _).
      destruct (uscale_spec K HD srt t0 l L0 Zl) as (T1 & T2 & _).
      rewrite <- El, <- A2 in ER.
      destruct (p_div_rem_exact uniS uok usm K uniS_ok HK HD Zc_quorem (uscale K srt l r0) Q R g r1 A1 N1 NQ NR IR ER) as (f1 & F1).
      destruct (ustep_spec K HD srt Q _ s1 NQ S1 M1) as (s2 & Es & Ns & Rs).
      destruct (ustep_spec K HD srt Q _ t1 NQ T1 L1) as (t2 & Et & Nt & Rt).
      assert (ER' : graw R == rsub K (rmul K (rconst l) (graw r0)) (rmul K (graw Q) (graw G))) by (rewrite <- A2, ER; unfold G; ring).
      destruct (IH G R s1 s2 t1 t2) as (r & s & t & (f2 & F2) & NN & NS & NT & Nr & EE & (c1 & C1 & D1) & (c2 & C2 & D2)); try assumption.
      * intros Rne. pose proof (irr_deg K srt g R NR) as X. specialize (Hn ltac:(discriminate)). cbn [udeg G] in Hn. specialize (X Og IR Rne). lia.
      * discriminate.
      * rewrite ER', Rs, Rt, S2, T2, E0, E1. ring.
      * exists r, s, t. split.
        { exists (Datatypes.S (f1 + f2)). intros [|f] Hf; [lia|]. cbn [uzz_loop]. unfold G at 1. fold G. fold l. unfold udivrem, nohook2.
          rewrite F1 by lia. cbn [obind]. rewrite Es. cbn [obind]. rewrite Et. cbn [obind]. apply F2. lia. }
        repeat (split; [assumption|]). split; [|exists c1; auto].
        exists (c1 * c2 * l). split; [nia|].
        assert (X : rmul K (rconst (c1 * c2 * l)) (graw r0) == radd (rmul K (rmul K (rconst c2) (graw Q)) (rmul K (rconst c1) (graw G))) (rmul K (rconst c1) (rmul K (rconst c2) (graw R)))).
        { rewrite ER'. change (c1 * c2 * l) with (cmul K (cmul K c1 c2) l). rewrite <- !(rconst_mul K). ring. }
        apply (rdivides_proper K HD _ _ (reflexivity _) _ _ X). apply (rd_add K HD); apply (rd_mull K HD); assumption.
Qed.

Lemma uneg_spec (F : upz) : norm F -> norm (uneg srt F) /\ graw (uneg srt F) == ropp K (graw F) /\ uneg srt F = map (fun t => (fst t, - snd t)) F.
Proof.
  intros N. assert (E : uneg srt F = uscale K srt (-1) F).
  { unfold uneg, uscale. f_equal. apply map_ext. intros t. f_equal. cbn [cmul Zc]. lia. }
  destruct (uscale_spec K HD srt F (-1) N ltac:(discriminate)) as (A & B & C0). rewrite <- E in *. split; [exact A|]. split.
  - rewrite B. assert (O : rconst (-1) == ropp K (r1 K)) by (apply (req_single K); reflexivity). rewrite O. ring.
  - rewrite C0. apply map_ext. intros t. f_equal. cbn [cmul Zc]. lia.
Qed.
Theorem uzz_ext_ok F G : norm F -> norm G -> F <> [] -> G <> [] ->
  exists r s t, (exists fuel0, forall fuel, (fuel0 <= fuel)%nat -> uzz_ext srt fuel F G = Ok (r, s, t)) /\
    norm r /\ norm s /\ norm t /\ (exists m c l, r = (m, c) :: l /\ 0 < c) /\
    graw r == radd (rmul K (graw s) (graw F)) (rmul K (graw t) (graw G)) /\
    (exists c, c <> 0 /\ graw r %| rmul K (rconst c) (graw F)) /\ (exists c, c <> 0 /\ graw r %| rmul K (rconst c) (graw G)).
Proof.
  intros NF NG Fn Gn.
  destruct (uzz_loop_ok (graw F) (graw G) (Datatypes.S (Z.to_nat (udeg G))) F G [(0, 1)] [] [] [(0, 1)]) as (r & s & t & (f & T) & Nr & Ns & Nt & Rne & E & D1 & D2);
    try assumption; try apply (uone_norm K HD); try apply unil_norm.
  { intros _. lia. }
  { rewrite (uone_req K). change (graw []) with (@Spec.r0 Z). ring. }
  { rewrite (uone_req K). change (graw []) with (@Spec.r0 Z). ring. }
  destruct r as [|[m c] l]; [congruence|].
  assert (Nc : c <> 0) by (apply (unin K _ (m, c) Nr (or_introl eq_refl))).
  destruct (Z.ltb_spec c 0) as [Lc|Lc].
  - destruct (uneg_spec _ Nr) as (A1 & A2 & A3). destruct (uneg_spec s Ns) as (B1 & B2 & _). destruct (uneg_spec t Nt) as (C1 & C2 & _).
    exists (uneg srt ((m, c) :: l)), (uneg srt s), (uneg srt t). split.
    { exists f. intros fuel Hf. unfold uzz_ext. destruct F as [|tf F]; [congruence|]. destruct G as [|tg G]; [congruence|]. rewrite T by exact Hf. cbn [obind snd].
      apply Z.ltb_lt in Lc. rewrite Lc. reflexivity. }
    split; [exact A1|]. split; [exact B1|]. split; [exact C1|]. split; [rewrite A3; cbn [map fst snd]; exists m, (- c); eexists; split; [reflexivity|lia]|].
    split; [rewrite A2, B2, C2, E; ring|].
    assert (Op : forall X, graw ((m, c) :: l) %| X -> graw (uneg srt ((m, c) :: l)) %| X).
    { intros X [q Eq]. exists (ropp K q). rewrite Eq, A2. ring. }
    destruct D1 as (c1 & N1 & D1). destruct D2 as (c2 & N2 & D2). split; [exists c1|exists c2]; auto.
  - exists ((m, c) :: l), s, t. split.
    { exists f. intros fuel Hf. unfold uzz_ext. destruct F as [|tf F]; [congruence|]. destruct G as [|tg G]; [congruence|]. rewrite T by exact Hf. cbn [obind snd].
      apply Z.ltb_ge in Lc. rewrite Lc. reflexivity. }
    split; [exact Nr|]. split; [exact Ns|]. split; [exact Nt|]. split; [exists m, c, l; split; [reflexivity|lia]|]. auto.
Qed.
End Srt.
