(** * Univariate gcd over the integers: contents, single terms, the modular images, the CRT loop (UGcd.v). *)
From Coq Require Import Ring_theory Ring Setoid Morphisms Znumtheory Sorting.Sorted.
From Verif Require Import Prelude Coef Spec SpecProofs SpecOps SpecOpsProofs GcdDom GcdPoly GcdMath OrderSpec PairVec PairVecProofs
  Mono MonoStruct MonoStructProofs Heap Poly PolyMulProofs Div PolyDivProofs PolyOps PolyOpsGen ConvertProofs GcdHom GcdRep Zp NumSpec ZpProofs
  Gcd GcdTerm GcdProofs Dense DenseWord DensePoly DenseMul DenseDiv DenseGcd DenseFuel DenseSparse UGcd UGcdBase.
Local Open Scope Z_scope.

Local Notation K := Zc.
Local Instance HK : ring_ok K := domain_ring K Zc_domain.
Local Notation HD := Zc_domain.
Local Notation HG := Z_cgcd.
Add Ring Rring : (rring K HK) (setoid (req_equiv K) (rring_ext K HK)).
Local Notation S := uniS.
Local Notation norm := (normal uok (m_gt uniS) K).
Local Notation graw := (graw usm).
Local Notation "a == b" := (req K a b) (at level 70).
Local Notation "a %| b" := (rdivides K a b) (at level 70).

(** ** divisions and products *)
Lemma udiv_ok f (F G H : upz) : norm F -> norm G -> G <> [] -> graw G %| graw F ->
  udiv f F G = Ok H -> norm H /\ graw F == rmul K (graw H) (graw G).
Proof. intros NF NG Gne Dv E. apply (updiv_ok K HD HG Zc_quorem nohook2 f F G H NF NG Gne Dv); [exact I|exact E]. Qed.
Lemma udivrem_ok f (F G Q : upz) : norm F -> norm G -> G <> [] ->
  udivrem f F G = Ok (Q, []) -> norm Q /\ graw F == rmul K (graw Q) (graw G).
Proof. intros NF NG Gne E. apply (pdivtest_dvd S uok usm uniS_ok K HD Zc_quorem nohook2 f F G Q NF NG Gne); [exact I|exact E]. Qed.
Lemma umul_ok (F G R : upz) : norm F -> norm G -> umul F G = Ok R -> norm R /\ graw R == rmul K (graw F) (graw G).
Proof.
  intros NF NG E. destruct (p_mul_ok S uok usm K uniS_ok HK HD nohook2 F G) as (R' & E' & A & B); [split; exact I|assumption..|].
  unfold umul in E. rewrite E' in E. injection E as <-. auto.
Qed.

(** ** contents *)
Lemma const_norm c : c <> 0 -> norm [(0, c)].
Proof. intros H. split; [repeat constructor; unfold uok; cbn; lia|]. split; [repeat constructor|repeat constructor; exact H]. Qed.
Lemma const_graw c : graw [(0, c)] == rconst c.
Proof. apply (req_single K); [|reflexivity]. intros v. rewrite exp_usm. destruct (N.eqb 0 v); reflexivity. Qed.
Lemma cfold_spec (l : upz) : forall c, let g := fold_left (fun c u => Z.gcd c (snd u)) l c in
  (g | c) /\ (forall t, In t l -> (g | snd t)) /\ forall d, (d | c) -> (forall t, In t l -> (d | snd t)) -> (d | g).
Proof.
  induction l as [|u l IH]; intros c; cbn [fold_left]; cbv zeta.
  - split; [apply Z.divide_refl|]. split; [intros t []|auto].
  - destruct (IH (Z.gcd c (snd u))) as (A1 & A2 & A3). split; [apply (Z.divide_trans _ _ _ A1), Z.gcd_divide_l|]. split.
    + intros t [<-|Ht]; [apply (Z.divide_trans _ _ _ A1), Z.gcd_divide_r|apply A2, Ht].
    + intros d Hc Hd. apply A3; [apply Z.gcd_greatest; [exact Hc|apply Hd; left; reflexivity]|intros t Ht; apply Hd; right; exact Ht].
Qed.
Lemma ucont_spec (F : upz) : F <> [] -> (forall t, In t F -> (ucont F | snd t)) /\ forall d, (forall t, In t F -> (d | snd t)) -> (d | ucont F).
Proof.
  destruct F as [|t r]; [congruence|]. intros _. cbn [ucont]. destruct (cfold_spec r (snd t)) as (A & B & C0). split.
  - intros u [<-|Hu]; [exact A|apply B, Hu].
  - intros d H. apply C0; [apply H; left; reflexivity|intros u Hu; apply H; right; exact Hu].
Qed.
Lemma ucont_nz (F : upz) : norm F -> F <> [] -> ucont F <> 0.
Proof.
  intros N Ne E. destruct (ucont_spec F Ne) as [A _]. destruct F as [|t r]; [congruence|].
  pose proof (A t (or_introl eq_refl)) as X. rewrite E in X. apply Z.divide_0_l in X. apply (proj2 (unin K _ t N (or_introl eq_refl))). exact X.
Qed.
Lemma const_dvd c (F : upz) : norm F -> (forall t, In t F -> (c | snd t)) <-> rconst c %| graw F.
Proof.
  intros N. split.
  - intros H. apply (term_dvd_sum [] c). intros t Ht. unfold MonoStruct.graw in Ht. apply in_map_iff in Ht as (u & <- & Hu). cbn [fst snd].
    split; [intros v; cbn [exp]; lia|apply H, Hu].
  - intros H t Ht. rewrite <- (uin_coef K HD F t N Ht). apply (term_dvd_coef [] c); [exact H|].
    rewrite (uin_coef K HD F t N Ht). apply (unin K F t N Ht).
Qed.
Lemma ucont_ok (F : upz) : norm F -> F <> [] -> is_cont K 0%N (graw F) (rconst (ucont F)).
Proof.
  intros N Ne. destruct (ucont_spec F Ne) as [A B]. split; [apply (vfree_const K)|]. split; [apply const_dvd; assumption|].
  intros d Fd Dd. assert (Nz : ~ graw F == r0) by (apply (unz K HD); assumption).
  assert (V : inV K [] d).
  { destruct Dd as [q E]. pose proof (inV_div K HD HG _ _ q d E Nz (uinV K F)) as V. intros m v Hm Hv.
    destruct (V m v Hm Hv) as [<-|[]]. exfalso. apply Hv, (Fd m Hm). }
  apply (inV_nil K HD) in V. set (c := coef K d []) in V. apply (rdivides_proper K HD _ _ V _ _ (reflexivity _)).
  apply (rdivides_proper K HD _ _ V _ _ (reflexivity _)) in Dd. pose proof (proj2 (const_dvd c F N) Dd) as Dd'. destruct (B c Dd') as [e E].
  exists (rconst e). rewrite (rconst_mul K). rewrite E. reflexivity.
Qed.
Lemma graw_cons {C} (t : Z * C) (F : list (Z * C)) : MonoStruct.graw usm (t :: F) = radd [(usm (fst t), snd t)] (graw F).
Proof. reflexivity. Qed.
(** dividing all coefficients *)
Lemma uquot_ok (F : upz) c : norm F -> c <> 0 -> (forall t, In t F -> (c | snd t)) ->
  let F' := map (fun t => (fst t, Z.quot (snd t) c)) F in norm F' /\ graw F == rmul K (graw F') (rconst c) /\ (forall t, In t F -> snd t = Z.quot (snd t) c * c).
Proof.
  intros N Nc Dv F'.
  assert (Q : forall t, In t F -> snd t = Z.quot (snd t) c * c).
  { intros t Ht. destruct (Dv t Ht) as [e E]. rewrite E. rewrite Z.quot_mul by exact Nc. reflexivity. }
  split; [|split; [|exact Q]].
  - destruct N as (N1 & N2 & N3). split; [|split].
    + unfold all_ok, F'. rewrite Forall_map. exact N1.
    + unfold desc, F'. rewrite map_map. exact N2.
    + unfold nonzero, F'. rewrite Forall_map. unfold nonzero in N3. rewrite Forall_forall in *. intros t Ht E. cbn [snd] in E. apply (N3 t Ht). rewrite (Q t Ht), E. reflexivity.
  - subst F'. clear N Dv. induction F as [|t F IH]; [change (@r0 Z == rmul K (@r0 Z) (rconst c)); ring|].
    specialize (IH (fun u Hu => Q u (or_intror Hu))). cbn [map]. rewrite !graw_cons. cbn [fst snd]. rewrite IH.
    assert (E1 : [(usm (fst t), snd t)] == rmul K [(usm (fst t), Z.quot (snd t) c)] (rconst c)).
    { cbn [Spec.rmul flat_map map app rconst fst snd]. apply (req_single K); [intros v; rewrite app_nil_r; reflexivity|]. cbn [cmul Zc]. apply (Q t (or_introl eq_refl)). }
    rewrite E1. ring.
Qed.
Lemma uscale_ok (F : upz) c : norm F -> c <> 0 ->
  let F' := map (fun t => (fst t, snd t * c)) F in norm F' /\ graw F' == rmul K (graw F) (rconst c).
Proof.
  intros N Nc F'. split.
  - destruct N as (N1 & N2 & N3). split; [|split].
    + unfold all_ok, F'. rewrite Forall_map. exact N1.
    + unfold desc, F'. rewrite map_map. exact N2.
    + unfold nonzero, F'. rewrite Forall_map. unfold nonzero in N3. rewrite Forall_forall in *. intros t Ht E. cbn [snd] in E. cbn in E. apply (N3 t Ht). cbn. nia.
  - subst F'. clear N. induction F as [|t F IH]; [change (@r0 Z == rmul K (@r0 Z) (rconst c)); ring|].
    cbn [map]. rewrite !graw_cons. cbn [fst snd]. rewrite IH.
    assert (E1 : [(usm (fst t), snd t * c)] == rmul K [(usm (fst t), snd t)] (rconst c)).
    { cbn [Spec.rmul flat_map map app rconst fst snd]. apply (req_single K); [intros v; rewrite app_nil_r; reflexivity|]. reflexivity. }
    rewrite E1. ring.
Qed.

(** ** one operand has a single term *)
Lemma usingle_fold r : forall m c, 0 <= m -> Forall (fun t : Z * Z => 0 <= fst t) r ->
  let a := fold_left (fun a u => (Z.min (fst a) (fst u), Z.gcd (snd a) (snd u))) r (m, c) in
  0 <= fst a /\ (forall t, In t ((m, c) :: r) -> fst a <= fst t /\ (snd a | snd t)) /\
  (forall s, (forall t, In t ((m, c) :: r) -> s <= fst t) -> s <= fst a) /\
  (forall d, (forall t, In t ((m, c) :: r) -> (d | snd t)) -> (d | snd a)).
Proof.
  induction r as [|u r IH]; intros m c Om Or; cbn [fold_left].
  - cbn [fst snd]. split; [exact Om|]. split; [intros t [<-|[]]; split; [apply Z.le_refl|apply Z.divide_refl]|].
    split; [intros s Hs; apply (Hs (m, c) (or_introl eq_refl))|intros d Hd; apply (Hd (m, c) (or_introl eq_refl))].
  - pose proof (Forall_inv Or) as Ou. cbv beta in Ou. cbn [fst snd].
    specialize (IH (Z.min m (fst u)) (Z.gcd c (snd u)) ltac:(lia) (Forall_inv_tail Or)). cbv zeta in IH.
    set (a := fold_left _ _ _) in *. destruct IH as (A1 & A2 & A3 & A4). split; [exact A1|]. split; [|split].
    + pose proof (A2 _ (or_introl eq_refl)) as [B1 B2]. cbn [fst snd] in B1, B2.
      intros t [<-|[<-|Ht]]; [| |apply A2; right; exact Ht]; cbn [fst snd]; (split; [lia|]).
      * apply (Z.divide_trans _ _ _ B2), Z.gcd_divide_l.
      * apply (Z.divide_trans _ _ _ B2), Z.gcd_divide_r.
    + intros s Hs. apply A3. intros t [<-|Ht]; [|apply Hs; right; right; exact Ht]. cbn [fst].
      pose proof (Hs (m, c) (or_introl eq_refl)) as X. pose proof (Hs u (or_intror (or_introl eq_refl))) as Y. cbn [fst] in X. lia.
    + intros d Hd. apply A4. intros t [<-|Ht]; [|apply Hd; right; right; exact Ht]. cbn [snd].
      apply Z.gcd_greatest; [apply (Hd (m, c) (or_introl eq_refl))|apply (Hd u (or_intror (or_introl eq_refl)))].
Qed.
Theorem usingle_ok tf rf tg rg : norm (tf :: rf) -> norm (tg :: rg) -> rf = [] \/ rg = [] ->
  let P := [usingle_gcd tf (rf ++ tg :: rg)] in norm P /\ is_gcd K (graw (tf :: rf)) (graw (tg :: rg)) (graw P).
Proof.
  intros NF NG H1. set (F := tf :: rf) in *. set (G := tg :: rg) in *. unfold usingle_gcd. destruct tf as [m0 c0'].
  destruct (usingle_fold (rf ++ G) m0 c0') as (A1 & A2 & A3 & A4).
  { apply (unin K F (m0, c0') NF (or_introl eq_refl)). }
  { apply Forall_forall. intros t Ht. apply in_app_or in Ht as [Ht|Ht]; [apply (unin K F t NF (or_intror Ht))|apply (unin K G t NG Ht)]. }
  set (a := fold_left _ _ _) in *. cbv zeta. destruct a as [m c] eqn:Ea. cbn [fst snd] in A1, A2, A3, A4.
  change ((m0, c0') :: rf ++ G) with (F ++ G) in A2, A3, A4.
  assert (Nc : c <> 0).
  { intros E. destruct (A2 (m0, c0') (or_introl eq_refl)) as [_ X]. cbn [snd] in X. rewrite E in X. apply Z.divide_0_l in X.
    apply (proj2 (unin K F (m0, c0') NF (or_introl eq_refl))). exact X. }
  split; [split; [constructor; [exact A1|constructor]|split; [repeat constructor|constructor; [exact Nc|constructor]]]|].
  assert (Dv : forall p : upz, norm p -> (forall t, In t p -> In t (F ++ G)) -> graw [(m, c)] %| graw p).
  { intros p Np Hp. apply (term_dvd_sum (usm m) c). intros t Ht. unfold MonoStruct.graw in Ht. apply in_map_iff in Ht as (u & <- & Hu). cbn [fst snd].
    destruct (A2 u (Hp u Hu)) as [B1 B2]. split; [|exact B2]. intros v. rewrite !exp_usm. destruct (N.eqb 0 v); lia. }
  split; [apply Dv; [exact NF|intros; apply in_or_app; auto]|]. split; [apply Dv; [exact NG|intros; apply in_or_app; auto]|].
  intros D DF DG.
  assert (T : exists m' d, D == [(m', d)]).
  { destruct H1 as [E1|E1].
    - destruct DF as [q Hq]. unfold F in Hq. rewrite E1 in Hq. pose proof (unin K F _ NF (or_introl eq_refl)) as [_ Ht].
      destruct (divisor_term K HD HG (usm m0) c0' D q Ht) as (m' & d & _ & _ & ED & _); [symmetry; exact Hq|eauto].
    - destruct DG as [q Hq]. unfold G in Hq. rewrite E1 in Hq. pose proof (unin K G _ NG (or_introl eq_refl)) as [_ Ht].
      destruct (divisor_term K HD HG (usm (fst tg)) (snd tg) D q Ht) as (m' & d & _ & _ & ED & _); [symmetry; exact Hq|eauto]. }
  destruct T as (m' & d & ED). apply (rdivides_proper K HD _ _ ED _ _ (reflexivity _)).
  apply (rdivides_proper K HD _ _ ED _ _ (reflexivity _)) in DF. apply (rdivides_proper K HD _ _ ED _ _ (reflexivity _)) in DG.
  assert (Dt : forall t, In t (F ++ G) -> mdivides m' (usm (fst t)) /\ (d | snd t)).
  { intros t Ht. apply in_app_or in Ht as [Ht|Ht].
    - rewrite <- (uin_coef K HD F t NF Ht). apply term_dvd_coef; [exact DF|]. rewrite (uin_coef K HD F t NF Ht). apply (unin K F t NF Ht).
    - rewrite <- (uin_coef K HD G t NG Ht). apply term_dvd_coef; [exact DG|]. rewrite (uin_coef K HD G t NG Ht). apply (unin K G t NG Ht). }
  apply term_dvd_term; [|apply A4; intros t Ht; apply Dt, Ht].
  intros v. rewrite exp_usm. destruct (N.eqb_spec 0 v) as [<-|n].
  - assert (X : Z.of_N (exp m' 0) <= m); [|clear - X A1; cbn [fst]; lia]. apply A3. intros t Ht. destruct (Dt t Ht) as [X _]. specialize (X 0%N). rewrite exp_usm in X. cbn [N.eqb] in X.
    assert (0 <= fst t) by (apply in_app_or in Ht as [Ht|Ht]; [apply (unin K F t NF Ht)|apply (unin K G t NG Ht)]). lia.
  - destruct (Dt (m0, c0') (or_introl eq_refl)) as [X _]. specialize (X v). rewrite exp_usm in X. destruct (N.eqb_spec 0 v); [contradiction|exact X].
Qed.
