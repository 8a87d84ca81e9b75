(** * Proofs about characteristic sets (Charset.v). *)
From Coq Require Import Ring Setoid Morphisms Sorting.Sorted Permutation.
From Verif Require Import Prelude Coef Spec SpecProofs SpecOps SpecOpsProofs OrderSpec PairVec PairVecProofs Mono MonoProofs
  MonoStruct MonoStructProofs Poly PolyMulProofs PolyOps MonoOpsProofs PolyOpsGen PolyOpsProofs PolyOps2Proofs ConvertProofs Prem PremProofs
  GcdPoly GcdMath GcdLex Charset CharsetSpec CharsetWf.
Local Open Scope Z_scope.

Section P.
Context (vo : vorder) (Hvo : vorder_ok vo) {C : Type} (K : coefs C) (HD : domain_ok K) (HG : cgcd_ok K).
Let HK : ring_ok K := domain_ring K HD.
Local Existing Instance HK.
Add Ring Kring : (ring_laws K HK).
Add Ring Rring : (rring K HK) (setoid (req_equiv K) (rring_ext K HK)).
Context (cgt : C -> C -> bool) (Hcgt : forall a b, a = b \/ cgt a b = true \/ cgt b a = true).
Notation S := (lexS vo).
Notation gt := (lex_gt vo).
Notation norm := (normal (mok vo) gt K).
Notation graw := (graw sm).
Notation poly := (poly C).
Notation rmul := (Spec.rmul K).
Notation vfree := (vfree K).
Notation "a == b" := (req K a b) (at level 70).
Notation main := (main K vo).

(** ** degrees of pseudo-remainders *)
Lemma deg_lt_rcoeff (p : rpoly C) v w n d : v <> w -> deg_lt K p v d -> deg_lt K (rcoeff K w n p) v d.
Proof.
  intros Nw L m Hm. rewrite (coef_rcoeff K HK) in Hm. destruct (N.eqb (exp m w) 0); [|congruence].
  specialize (L _ Hm). cbn [exp] in L. destruct (N.eqb_spec w v); [congruence|]. rewrite exp_mdrop in L.
  destruct (N.eqb_spec v w); [congruence|]. lia.
Qed.
Lemma prem_deg v b G F Q R w d : pseudo_div K v b G F Q R -> ~ F == r0 -> w <> v -> vfree w F -> deg_lt K G w d -> deg_lt K R w d.
Proof.
  intros (dG & dF & n & A & B & L & _ & _ & E) NF Nw Fw Gw m Hm.
  destruct (N.ltb_spec (exp m w) d) as [|Hd]; [assumption|exfalso]. set (k := exp m w) in *.
  assert (Ec : rcoeff K w k (rmul (rpow K (rcoeff K v dF F) n) G) == r0).
  { apply (rcoeff_lt K HD). intros s Hs. apply (coef_mul_supp K HK) in Hs as (m1 & m2 & H1 & H2 & Em).
    assert (Fp : vfree w (rpow K (rcoeff K v dF F) n)).
    { clear - Fw Nw HD HK. induction n as [|n IH]; cbn [rpow].
      - intros s Hs. unfold r1, rconst in Hs. cbn [coef] in Hs. destruct (meqb_spec [] s) as [Em|Em]; [|congruence]. rewrite <- (Em w). reflexivity.
      - intros s Hs. apply (coef_mul_supp K HK) in Hs as (m1 & m2 & H1 & H2 & Em). rewrite <- (Em w), exp_app, (IH _ H2).
        apply (deg_lt_rcoeff F w v dF 1 Nw) in H1; [lia|]. intros q Hq. rewrite (Fw q Hq). lia. }
    rewrite <- (Em w), exp_app, (Fp _ H1). specialize (Gw _ H2). lia. }
  assert (Ec' : radd (rmul (rcoeff K w k Q) F) (rcoeff K w k R) == r0).
  { transitivity (rcoeff K w k (radd (rmul Q F) R)).
    - rewrite (rcoeff_add K). apply (radd_proper K HK); [symmetry; apply (rcoeff_mul_free K HD); exact Fw|reflexivity].
    - rewrite <- Ec. apply (rcoeff_proper K HK); symmetry; exact E. }
  assert (NR : ~ rcoeff K w k R == r0).
  { intros Z. apply Hm. specialize (Z (mdrop w m)). rewrite (coef_rcoeff K HK) in Z. rewrite exp_mdrop, N.eqb_refl in Z. cbn [N.eqb] in Z.
    transitivity (coef K (@r0 C) (mdrop w m)); [rewrite <- Z|reflexivity]. apply (coef_proper K HK). intros u. rewrite <- (meq_split w m u). cbn [exp]. fold k.
    rewrite !exp_mdrop. destruct (N.eqb u w); reflexivity. }
  assert (NQ : ~ rcoeff K w k Q == r0).
  { intros Z. apply NR. rewrite <- Ec'. transitivity (radd (rmul r0 F) (rcoeff K w k R)); [ring|].
    apply (radd_proper K HK); [|reflexivity]. apply (rmul_proper K HK); [symmetry; exact Z|reflexivity]. }
  destruct (deg_exists K HD (rcoeff K w k Q) v) as [e He].
  pose proof (deg_is_mul K HD HG _ _ v e dF NQ NF He B) as [_ [Z|(s & Hs & Es)]].
  - assert (dF = 0)%N by lia. subst dF. apply NR. intros s.
    pose proof (deg_lt_rcoeff R v w k 0 ltac:(congruence) L s) as X. cbn. destruct (c0_dec K HK (coef K (rcoeff K w k R) s)) as [Y|Y]; [exact Y|].
    specialize (X Y). lia.
  - assert (X : coef K (rcoeff K w k R) s <> c0 K).
    { intros Z. apply Hs. specialize (Ec' s). unfold radd in Ec'. rewrite (coef_app K HK) in Ec'. rewrite Z in Ec'. change (coef K r0 s) with (c0 K) in Ec'. rewrite <- Ec'. ring. }
    apply (deg_lt_rcoeff R v w k dF ltac:(congruence) L) in X. lia.
Qed.

(** ** main variables *)
Lemma main_first (c : poly) : norm c -> is_number c = false -> main (graw c) (first_var c) (Z.to_N (first_deg c)) /\ 0 < first_deg c.
Proof.
  intros N E. destruct (not_number_head vo K c N E) as (t & r & -> & Em). pose proof (first_top vo Hvo K r t N Em) as T.
  set (x := first_var (t :: r)) in *.
  destruct (nin vo K (t :: r) t N (or_introl eq_refl)) as [Ot _].
  assert (Ed : first_deg (t :: r) = zexp (fst t) x /\ 0 < first_deg (t :: r)).
  { unfold x. cbn [first_var first_deg]. unfold mfirst_var, mfirst_deg. apply mok_dok in Ot as Od.
    destruct (md (fst t)) as [|[w e] l] eqn:El; [congruence|]. pose proof Od as Od'. apply dok_cons in Od' as (Pe & _). split; [|exact Pe].
    unfold zexp. rewrite El. symmetry. apply (ex_in vo Hvo ((w, e) :: l) w e Od). left. reflexivity. }
  destruct Ed as [Ed Pd]. split; [|exact Pd].
  pose proof (topp_head vo Hvo K x t r N (Forall_inv T)) as [_ L]. split; [|split; [lia|]].
  - rewrite Ed. apply (deg_is_zexp vo Hvo K HD); [exact N|lia|exact L|left; reflexivity].
  - intros w (m & Hm & Hw). apply (supp_in vo Hvo K HD _ m N) in Hm as (u & Hu & Eu). rewrite (Eu w) in Hw.
    apply (topp_occ vo Hvo K (t :: r) x u w N T Hu). lia.
Qed.
Lemma main_unique (p : rpoly C) x d y e : main p x d -> main p y e -> x = y /\ d = e.
Proof.
  intros ((Lx & Dx) & Px & Ox) ((Ly & Dy) & Py & Oy).
  destruct Dx as [?|(m & Hm & Em)]; [lia|]. destruct Dy as [?|(m' & Hm' & Em')]; [lia|].
  assert (E : x = y).
  { destruct (Ox y) as [->|H1]; [exists m'; split; [exact Hm'|lia]|reflexivity|].
    destruct (Oy x) as [->|H2]; [exists m; split; [exact Hm|lia]|reflexivity|].
    pose proof (vo_trans vo Hvo _ _ _ H1 H2) as H. rewrite (vo_irrefl vo Hvo) in H. discriminate. }
  subst y. split; [reflexivity|]. specialize (Lx _ Hm'). specialize (Ly _ Hm). lia.
Qed.
Lemma main_free (p : rpoly C) x d y : main p x d -> vo y x = true -> vfree y p.
Proof.
  intros (_ & _ & O) H m Hm. destruct (N.eq_dec (exp m y) 0) as [E|E]; [exact E|exfalso].
  destruct (O y) as [->|H']; [exists m; split; assumption|rewrite (vo_irrefl vo Hvo) in H; discriminate|].
  pose proof (vo_trans vo Hvo _ _ _ H H') as X. rewrite (vo_irrefl vo Hvo) in X. discriminate.
Qed.
Lemma main_nz (p : rpoly C) x d : main p x d -> ~ p == r0.
Proof. intros ((_ & D) & P & _) E. destruct D as [?|(m & Hm & _)]; [lia|]. apply Hm. apply E. Qed.

(** ** initials *)
Lemma initials_incl cs cs' i : (forall c, In c cs -> In c cs') -> initials K vo cs i -> initials K vo cs' i.
Proof. intros H. induction 1; [apply in_one|eapply in_mul; eauto|eapply in_eq; eauto]. Qed.
Lemma initials_mul cs i j : initials K vo cs i -> initials K vo cs j -> initials K vo cs (rmul i j).
Proof.
  intros Hi Hj. induction Hi as [|c x d p Hc Hm Hp IH|p q E Hp IH].
  - apply (in_eq K vo cs j); [ring|exact Hj].
  - apply (in_eq K vo cs (rmul (rcoeff K x d c) (rmul p j))); [ring|]. apply in_mul; assumption.
  - apply (in_eq K vo cs (rmul p j)); [apply (rmul_proper K HK); [exact E|reflexivity]|exact IH].
Qed.
Lemma initials_pow cs c x d n : In c cs -> main c x d -> initials K vo cs (rpow K (rcoeff K x d c) n).
Proof. intros Hc Hm. induction n as [|n IH]; cbn [rpow]; [apply in_one|apply in_mul; assumption]. Qed.

(** ** chains of pseudo-remainders *)
Context (compress : poly -> poly -> outcome (option poly)) (compress_v : var -> poly -> poly -> outcome (option poly)).
Context (HC : comp_all S (mok vo) sm K compress) (HCv : forall v, comp_all (lexS (vuniv v)) (mok (vuniv v)) sm K (compress_v v)).
Context (ms1 : var -> list (var * Z) -> list (var * Z)) (ms2 : list (var * Z) -> list (var * Z)).
Context (s1 : var -> poly -> poly) (s2 : poly -> poly).
Context (Hm1 : forall v, sort_ok (fun _ : var => True) (vuniv v) (ms1 v)) (Hm2 : sort_ok (fun _ : var => True) vo ms2).
Context (Hs1 : forall v, sort_ok (mok (vuniv v)) (lex_gt (vuniv v)) (s1 v)) (Hs2 : sort_ok (mok vo) gt s2).
Notation prem_chain := (prem_chain K vo compress compress_v ms1 ms2 s1 s2).
Notation remainders := (remainders K vo compress compress_v ms1 ms2 s1 s2).

Definition good (c : poly) : Prop := norm c /\ is_number c = false.
Lemma ideal_incl' (gs gs' : list (rpoly C)) x : (forall g, In g gs -> ideal K gs' g) -> ideal K gs x -> ideal K gs' x.
Proof.
  intros H HI. induction HI as [g Hg| |p q _ IHp _ IHq|a p _ IH|p q E _ IH];
    [apply H, Hg|apply ideal_0|apply ideal_add; assumption|apply ideal_mul, IH|apply (ideal_eq K gs' p); assumption].
Qed.

Lemma chain_ok cs : Forall good cs -> StronglySorted (fun c c' => vfree (first_var c) (graw c')) cs -> forall f, norm f ->
  exists g, (exists n0, forall fuel, (n0 <= fuel)%nat -> prem_chain fuel cs f = Ok g) /\ norm g /\
    (forall x d, Forall (fun c => vfree x (graw c)) cs -> deg_lt K (graw f) x d -> deg_lt K (graw g) x d) /\
    Forall (fun c => deg_lt K (graw g) (first_var c) (Z.to_N (first_deg c))) cs /\
    exists i, initials K vo (map graw cs) i /\ ideal K (map graw cs) (rsub K (rmul i (graw f)) (graw g)).
Proof.
  induction cs as [|c cs IH]; intros HG' HS f Nf.
  - exists f. split; [exists 0%nat; intros fuel _; reflexivity|]. split; [exact Nf|]. split; [auto|]. split; [constructor|].
    exists (Spec.r1 K). split; [apply in_one|]. apply (ideal_eq K _ r0); [ring|apply ideal_0].
  - apply StronglySorted_inv in HS as [HS HF]. inversion HG' as [|? ? [Nc Ec] HG2]; subst.
    destruct (main_first c Nc Ec) as [Mc Pc]. set (v := first_var c) in *.
    assert (Cne : c <> []) by (intros ->; discriminate Ec).
    destruct (prem_lex_ok vo Hvo S (or_introl eq_refl) K HK HD v compress (compress_v v) (vuniv_ok v) HC (HCv v) (ms1 v) ms2 (s1 v) s2
      (Hm1 v) Hm2 (Hs1 v) Hs2 eq_refl f c false Nf Nc Cne ltac:(discriminate)) as (R & (n1 & ER) & NR & Q & PD).
    destruct (IH HG2 HS R NR) as (g & (n2 & Eg) & Ng & Dg & Rg & i & Hi & HI).
    exists g. split; [exists (Nat.max n1 n2); intros fuel Hf|].
    { cbn [Charset.prem_chain]. fold v. rewrite ER by lia. cbn [obind]. apply Eg. lia. }
    split; [exact Ng|]. split; [|split].
    + intros x d Fx Lx. inversion Fx as [|? ? Fc Fcs]; subst. apply Dg; [exact Fcs|].
      apply (prem_deg v false (graw f) (graw c) Q (graw R) x d PD); [apply (main_nz _ _ _ Mc)| |exact Fc|exact Lx].
      intros ->. destruct Mc as ((_ & D) & P & _). destruct D as [?|(m & Hm & Em)]; [lia|]. specialize (Fc m Hm). lia.
    + constructor; [|exact Rg]. apply Dg; [exact HF|]. destruct PD as (dG & dF & n & _ & B & L & _). fold v.
      rewrite (deg_is_unique K _ _ _ _ (proj1 Mc) B). exact L.
    + destruct PD as (dG & dF & n & _ & B & L & _ & _ & E). rewrite <- (deg_is_unique K _ _ _ _ (proj1 Mc) B) in E.
      set (l := rpow K (rcoeff K v (Z.to_N (first_deg c)) (graw c)) n) in *.
      exists (rmul i l). split.
      * apply initials_mul; [apply (initials_incl (map graw cs)); [intros z Hz; right; exact Hz|exact Hi]|].
        apply initials_pow; [left; reflexivity|exact Mc].
      * apply (ideal_eq K _ (radd (rmul (rmul i Q) (graw c)) (rsub K (rmul i (graw R)) (graw g)))).
        { transitivity (rsub K (rmul i (radd (rmul Q (graw c)) (graw R))) (graw g)); [ring|]. rewrite <- E. ring. }
        apply ideal_add; [apply ideal_mul, ideal_gen; left; reflexivity|].
        eapply ideal_incl'; [|exact HI]. intros z Hz. apply ideal_gen. right. exact Hz.
Qed.

(** ** ranks *)
Notation rankcompare := (rankcompare vo).
Notation is_reduced := (is_reduced vo).
Notation min_rank := (min_rank vo).
Notation basset := (@Charset.basset C vo).
Lemma rank_irrefl (a : poly) : rankcompare a a = false.
Proof.
  unfold Charset.rankcompare. destruct (is_number a); [reflexivity|]. rewrite (vo_irrefl vo Hvo), N.eqb_refl. cbn [negb]. apply Z.ltb_irrefl.
Qed.
Lemma rank_spec (a b : poly) : is_number a = false -> is_number b = false ->
  rankcompare a b = true <-> vo (first_var b) (first_var a) = true \/ (first_var a = first_var b /\ first_deg a < first_deg b).
Proof.
  intros Ea Eb. unfold Charset.rankcompare. rewrite Ea, Eb. destruct (vo (first_var b) (first_var a)) eqn:E; [tauto|].
  destruct (N.eqb_spec (first_var a) (first_var b)) as [H|H]; cbn [negb].
  - rewrite Z.ltb_lt. split; [intros ?; right; split; assumption|]. intros [?|[_ ?]]; [discriminate|assumption].
  - split; [discriminate|]. intros [?|[? _]]; [discriminate|contradiction].
Qed.
Lemma rank_num (a b : poly) : rankcompare a b = true -> is_number b = false.
Proof. unfold Charset.rankcompare. destruct (is_number b); [discriminate|reflexivity]. Qed.
Lemma rank_trans (a b c : poly) : rankcompare a b = true -> rankcompare b c = true -> rankcompare a c = true.
Proof.
  intros H1 H2. pose proof (rank_num _ _ H1) as Eb. pose proof (rank_num _ _ H2) as Ec.
  destruct (is_number a) eqn:Ea; [unfold Charset.rankcompare; rewrite Ec, Ea; reflexivity|].
  apply (rank_spec _ _ Ea Eb) in H1. apply (rank_spec _ _ Eb Ec) in H2. apply (rank_spec _ _ Ea Ec).
  destruct H1 as [H1|[H1 L1]], H2 as [H2|[H2 L2]].
  - left. apply (vo_trans vo Hvo _ _ _ H2 H1).
  - left. rewrite <- H2. exact H1.
  - left. rewrite H1. exact H2.
  - right. split; [congruence|lia].
Qed.
Lemma min_rank_spec r : forall f : poly, In (min_rank f r) (f :: r) /\ forall i, In i (f :: r) -> rankcompare i (min_rank f r) = false.
Proof.
  induction r as [|x r IH]; intros f.
  - split; [left; reflexivity|]. intros i [<-|[]]. apply rank_irrefl.
  - change (min_rank f (x :: r)) with (min_rank (if rankcompare x f then x else f) r).
    destruct (IH (if rankcompare x f then x else f)) as [H1 H2]. split.
    + destruct H1 as [H1|H1]; [|right; right; exact H1]. rewrite <- H1. destruct (rankcompare x f); [right; left; reflexivity|left; reflexivity].
    + pose proof (H2 _ (or_introl eq_refl)) as H0. intros i [<-|[<-|Hi]]; [| |apply H2; right; exact Hi].
      * destruct (rankcompare x f) eqn:E; [|exact H0]. destruct (rankcompare f (min_rank x r)) eqn:E'; [|reflexivity].
        rewrite (rank_trans _ _ _ E E') in H0. discriminate.
      * destruct (rankcompare x f) eqn:E; [exact H0|]. destruct (rankcompare x (min_rank f r)) eqn:E'; [|reflexivity]. exfalso.
        (* x < m, m in f::r, and not x < f; m = f or later *)
        destruct (is_number f) eqn:Ef.
        { (* f is a number: nothing is less than f, and m is not above f *)
          pose proof (rank_num _ _ E') as Em. unfold Charset.rankcompare in H0. rewrite Em, Ef in H0. discriminate. }
        pose proof (rank_num _ _ E') as Em. destruct (is_number x) eqn:Ex; [unfold Charset.rankcompare in E; rewrite Ef, Ex in E; discriminate|].
        apply (rank_spec _ _ Ex Em) in E'.
        assert (Hf : ~ (vo (first_var (min_rank f r)) (first_var f) = true \/ (first_var f = first_var (min_rank f r) /\ first_deg f < first_deg (min_rank f r)))).
        { rewrite <- (rank_spec _ _ Ef Em). congruence. }
        assert (Hx : ~ (vo (first_var f) (first_var x) = true \/ (first_var x = first_var f /\ first_deg x < first_deg f))).
        { rewrite <- (rank_spec _ _ Ex Ef). congruence. }
        destruct (vo_total vo Hvo (first_var f) (first_var (min_rank f r))) as [T|[T|T]]; [| |tauto].
        -- destruct E' as [E'|[E' L]]; [rewrite <- T in E'; tauto|].
           apply Hx. right. split; [congruence|]. assert (~ first_deg f < first_deg (min_rank f r)) by tauto. lia.
        -- apply Hx. left. destruct E' as [E'|[E' _]]; [apply (vo_trans vo Hvo _ _ _ T E')|rewrite E'; exact T].
Qed.

(** ** reducedness *)
Lemma reduced_spec (f g : poly) : good f -> good g ->
  is_reduced f g = true <-> p_degree f (first_var g) < first_deg g.
Proof.
  intros [Nf Ef] [Ng Eg]. unfold Charset.is_reduced. destruct f as [|t r]; [discriminate Ef|]. rewrite Eg, Ef, (p_degree_lex_spec vo Hvo K _ _ Nf). apply Z.ltb_lt.
Qed.
Lemma first_degree (f : poly) : good f -> p_degree f (first_var f) = first_deg f.
Proof.
  intros [Nf Ef]. destruct (main_first f Nf Ef) as [M P]. destruct (p_degree_spec vo Hvo S (or_introl eq_refl) K HK f (first_var f) Nf) as [P' D].
  pose proof (deg_is_unique K _ _ _ _ (proj1 M) D). lia.
Qed.
Definition nz1 (f : poly) : Prop := norm f /\ f <> [].
Lemma good_nz f : good f -> nz1 f.
Proof. intros [N E]. split; [exact N|]. intros ->. discriminate. Qed.
Lemma reduced_self f : nz1 f -> is_reduced f f = false.
Proof.
  intros [N E]. destruct (is_number f) eqn:En.
  - unfold Charset.is_reduced. destruct f; [congruence|]. rewrite En. reflexivity.
  - destruct (is_reduced f f) eqn:H; [|reflexivity]. apply (reduced_spec f f (conj N En) (conj N En)) in H. rewrite (first_degree f (conj N En)) in H. lia.
Qed.
Lemma reduced_of_deg (f g : poly) : good f -> good g -> deg_lt K (graw f) (first_var g) (Z.to_N (first_deg g)) -> is_reduced f g = true.
Proof.
  intros Gf Gg L. apply reduced_spec; [exact Gf|exact Gg|]. destruct Gf as [Nf Ef], Gg as [Ng Eg].
  destruct (p_degree_spec vo Hvo S (or_introl eq_refl) K HK f (first_var g) Nf) as [P [_ D]]. destruct (main_first g Ng Eg) as [_ Pg].
  destruct D as [D|(m & Hm & Em)]; [lia|]. specialize (L m Hm). lia.
Qed.
Lemma deg_of_reduced (f g : poly) : good f -> good g -> is_reduced f g = true -> deg_lt K (graw f) (first_var g) (Z.to_N (first_deg g)).
Proof.
  intros Gf Gg L. apply (reduced_spec f g Gf Gg) in L. destruct Gf as [Nf Ef].
  destruct (p_degree_spec vo Hvo S (or_introl eq_refl) K HK f (first_var g) Nf) as [P [D _]]. intros m Hm. specialize (D m Hm). lia.
Qed.

(** ** basset *)
Lemma basset_mono n : forall (F B : list poly) m, basset n F = Ok B -> (n <= m)%nat -> basset m F = Ok B.
Proof.
  induction n as [|n IH]; intros F B m E L; destruct F as [|f r]; cbn [Charset.basset] in E; try discriminate; try (destruct m; exact E).
  destruct m as [|m]; [lia|]. cbn [Charset.basset]. destruct (basset n _) as [B'| | |] eqn:E'; try discriminate. cbn [obind] in E.
  rewrite (IH _ _ m E' ltac:(lia)). exact E.
Qed.
Lemma filter_len (A : Type) (p : A -> bool) l : (length (filter p l) <= length l)%nat.
Proof. induction l as [|x l IH]; cbn; [lia|]. destruct (p x); cbn; lia. Qed.
Lemma filter_lt (A : Type) (p : A -> bool) l x : In x l -> p x = false -> (length (filter p l) < length l)%nat.
Proof.
  induction l as [|y l IH]; intros H E; [destruct H|]. destruct H as [->|H]; cbn.
  - rewrite E. pose proof (filter_len A p l) as L. lia.
  - specialize (IH H E). destruct (p y); cbn; lia.
Qed.
Lemma basset_ex n : forall F, (length F <= n)%nat -> Forall nz1 F -> exists B, basset n F = Ok B.
Proof.
  induction n as [|n IH]; intros F L HF; destruct F as [|f r]; cbn [length] in L; [exists []; reflexivity|lia|exists []; reflexivity|].
  cbn [Charset.basset]. destruct (min_rank_spec r f) as [Hin _]. set (m := min_rank f r) in *. rewrite Forall_forall in HF.
  destruct (IH (filter (fun i => is_reduced i m) (f :: r))) as [B EB].
  - pose proof (filter_lt poly (fun i => is_reduced i m) (f :: r) m Hin (reduced_self m (HF m Hin))) as X. cbn [length] in X. lia.
  - apply Forall_forall. intros i Hi. apply filter_In in Hi as [Hi _]. apply HF, Hi.
  - rewrite EB. eexists. reflexivity.
Qed.
Definition crel (c c' : poly) : Prop := vo (first_var c') (first_var c) = true /\ is_reduced c' c = true.
Lemma basset_inv n F B : basset n F = Ok B -> Forall nz1 F ->
  match B with
  | [] => F = []
  | c :: B' => In c F /\ (forall i, In i F -> rankcompare i c = false) /\
      exists n', (n' < n)%nat /\ basset n' (filter (fun i => is_reduced i c) F) = Ok B'
  end.
Proof.
  destruct F as [|f r]; intros E HF; [destruct n; cbn in E; injection E as <-; reflexivity|].
  destruct n as [|n]; cbn [Charset.basset] in E; [discriminate|].
  destruct (basset n _) as [B'| | |] eqn:E'; try discriminate. cbn [obind] in E. injection E as <-.
  destruct (min_rank_spec r f) as [H1 H2]. split; [exact H1|]. split; [exact H2|]. exists n. split; [lia|exact E'].
Qed.
Lemma min_good F c : Forall nz1 F -> (forall i, In i F -> rankcompare i c = false) -> is_number c = false -> Forall good F.
Proof.
  intros HF H E. rewrite Forall_forall in *. intros i Hi. split; [apply (HF i Hi)|]. specialize (H i Hi).
  destruct (is_number i) eqn:Ei; [|reflexivity]. unfold Charset.rankcompare in H. rewrite E, Ei in H. discriminate.
Qed.
Lemma good_rel F c i : Forall good F -> In c F -> (forall i, In i F -> rankcompare i c = false) -> In i F -> is_reduced i c = true -> crel c i.
Proof.
  intros HF Hc Hmin Hi Hr. split; [|exact Hr]. rewrite Forall_forall in HF. pose proof (HF c Hc) as Gc. pose proof (HF i Hi) as Gi.
  apply (reduced_spec i c Gi Gc) in Hr. specialize (Hmin i Hi).
  assert (X : ~ (vo (first_var c) (first_var i) = true \/ (first_var i = first_var c /\ first_deg i < first_deg c))).
  { rewrite <- (rank_spec i c (proj2 Gi) (proj2 Gc)). congruence. }
  destruct (vo_total vo Hvo (first_var i) (first_var c)) as [T|[T|T]]; [|exact T|tauto].
  exfalso. apply X. right. split; [exact T|]. rewrite <- T, (first_degree i Gi) in Hr. exact Hr.
Qed.
Lemma basset_good n : forall F B, basset n F = Ok B -> Forall good F -> Forall good B /\ incl B F /\ StronglySorted crel B.
Proof.
  induction n as [n IH] using (well_founded_induction Nat.lt_wf_0 : forall P : nat -> Prop, (forall x, (forall y, (y < x)%nat -> P y) -> P x) -> forall a, P a).
  intros F B E HF.
  assert (HF' : Forall nz1 F) by (eapply Forall_impl; [apply good_nz|exact HF]).
  pose proof (basset_inv n F B E HF') as I. destruct B as [|c B]; [split; [constructor|split; [intros ? []|constructor]]|].
  destruct I as (Hc & Hm & n' & Ln & E').
  assert (HFF : Forall good (filter (fun i => is_reduced i c) F)).
  { rewrite Forall_forall in *. intros i Hi. apply filter_In in Hi as [Hi _]. apply HF, Hi. }
  destruct (IH n' Ln _ _ E' HFF) as (G & In' & SS). rewrite Forall_forall in HF. split; [constructor; [apply HF, Hc|exact G]|]. split.
  - intros x [<-|Hx]; [exact Hc|]. apply In' in Hx. apply filter_In in Hx. apply Hx.
  - constructor; [exact SS|]. apply Forall_forall. intros x Hx. apply In' in Hx. apply filter_In in Hx as [Hx Hr].
    apply (good_rel F c x); try assumption. apply Forall_forall, HF.
Qed.

(** ** keys *)
Variable V : list var.
Definition idx (x : var) : nat := length (filter (vo x) V).
Definition key (c : poly) : nat * nat := (idx (first_var c), Z.to_nat (first_deg c)).
Lemma filter_sub (A : Type) (p q : A -> bool) l : (forall x, In x l -> p x = true -> q x = true) -> (length (filter p l) <= length (filter q l))%nat.
Proof.
  induction l as [|x l IH]; intros H; [cbn; lia|]. cbn. specialize (IH (fun y Hy => H y (or_intror Hy))). pose proof (H x (or_introl eq_refl)) as Hx.
  destruct (p x); [rewrite (Hx eq_refl); cbn; lia|destruct (q x); cbn; lia].
Qed.
Lemma filter_sub_lt (A : Type) (p q : A -> bool) l z : (forall x, In x l -> p x = true -> q x = true) -> In z l -> p z = false -> q z = true ->
  (length (filter p l) < length (filter q l))%nat.
Proof.
  induction l as [|x l IH]; intros H Hz Ep Eq; [destruct Hz|]. cbn. pose proof (H x (or_introl eq_refl)) as Hx.
  destruct Hz as [->|Hz].
  - rewrite Ep, Eq. pose proof (filter_sub A p q l (fun y Hy => H y (or_intror Hy))). cbn. lia.
  - specialize (IH (fun y Hy => H y (or_intror Hy)) Hz Ep Eq). destruct (p x); [rewrite (Hx eq_refl); cbn; lia|destruct (q x); cbn; lia].
Qed.
Lemma idx_lt x y : vo y x = true -> In x V -> (idx x < idx y)%nat.
Proof.
  intros H Hx. apply (filter_sub_lt var (vo x) (vo y) V x); [|exact Hx|apply (vo_irrefl vo Hvo)|exact H].
  intros z _ Hz. apply (vo_trans vo Hvo _ _ _ H Hz).
Qed.
Lemma idx_len x : In x V -> (idx x < length V)%nat.
Proof. intros H. apply (filter_lt var (vo x) V x H). apply (vo_irrefl vo Hvo). Qed.

Definition inVV (p : poly) : Prop := forall w, ~ In w V -> vfree w (graw p).
Lemma first_inV c : good c -> inVV c -> In (first_var c) V.
Proof.
  intros [N E] H. destruct (main_first c N E) as [((_ & D) & P & _) _]. destruct D as [?|(m & Hm & Em)]; [lia|].
  destruct (in_dec N.eq_dec (first_var c) V) as [I|I]; [exact I|]. specialize (H _ I m Hm). lia.
Qed.
Lemma kval_chain B : Forall good B -> Forall inVV B -> StronglySorted crel B -> forall k, Forall (fun c => (k <= idx (first_var c))%nat) B ->
  kval (length V) k (map key B).
Proof.
  induction B as [|c B IH]; intros HG' HV HS k Hk; [constructor|]. cbn [map]. inversion HG' as [|? ? Gc HG2]; subst. inversion HV as [|? ? Vc HV2]; subst.
  apply StronglySorted_inv in HS as [HS HF]. pose proof (Forall_inv Hk) as Hc. cbv beta in Hc. constructor.
  - cbn [key fst]. split; [exact Hc|]. apply idx_len, (first_inV c Gc Vc).
  - apply IH; try assumption. rewrite Forall_forall in *. intros x Hx. destruct (HF x Hx) as [H _]. cbn [key fst].
    apply idx_lt; [exact H|apply (first_inV c Gc Vc)].
Qed.
Lemma rank_klex a b : good a -> good b -> inVV a -> rankcompare a b = true -> klex (key a) (key b).
Proof.
  intros Ga Gb Va H. apply (rank_spec a b (proj2 Ga) (proj2 Gb)) in H. destruct (main_first a (proj1 Ga) (proj2 Ga)) as [_ Pa]. destruct H as [H|[H L]].
  - left. apply idx_lt; [exact H|apply (first_inV a Ga Va)].
  - right. unfold key. cbn [fst snd]. rewrite H. split; [reflexivity|lia].
Qed.
Lemma basset_lower n : forall F B n' F' B' r, basset n F = Ok B -> basset n' F' = Ok B' -> Forall good F -> Forall good F' ->
  Forall inVV F' -> incl F F' -> In r F' -> Forall (fun c => is_reduced r c = true) B -> klt (map key B') (map key B).
Proof.
  induction n as [n IH] using (well_founded_induction Nat.lt_wf_0 : forall P : nat -> Prop, (forall x, (forall y, (y < x)%nat -> P y) -> P x) -> forall a, P a).
  intros F B n' F' B' r E E' HF HF' HV Hi Hr Hred.
  pose proof (basset_inv n F B E ltac:(eapply Forall_impl; [apply good_nz|exact HF])) as I.
  pose proof (basset_inv n' F' B' E' ltac:(eapply Forall_impl; [apply good_nz|exact HF'])) as I'.
  destruct B' as [|c' B']; [subst F'; destruct Hr|]. destruct I' as (Hc' & Hm' & m' & Lm' & Em').
  destruct B as [|c B]; [constructor|]. destruct I as (Hc & Hm & m & Lm & Em). cbn [map].
  pose proof (proj1 (Forall_forall _ _) HF' c (Hi c Hc)) as Gc. pose proof (proj1 (Forall_forall _ _) HF' c' Hc') as Gc'.
  destruct (rankcompare c' c) eqn:R1.
  { apply klt_head. apply rank_klex; try assumption. apply (proj1 (Forall_forall _ _) HV c' Hc'). }
  pose proof (Hm' c (Hi c Hc)) as R2.
  assert (EE : first_var c' = first_var c /\ first_deg c' = first_deg c).
  { assert (X1 := rank_spec c' c (proj2 Gc') (proj2 Gc)). assert (X2 := rank_spec c c' (proj2 Gc) (proj2 Gc')). rewrite R1 in X1. rewrite R2 in X2.
    assert (Y1 : ~ (vo (first_var c) (first_var c') = true \/ first_var c' = first_var c /\ first_deg c' < first_deg c)) by (rewrite <- X1; discriminate).
    assert (Y2 : ~ (vo (first_var c') (first_var c) = true \/ first_var c = first_var c' /\ first_deg c < first_deg c')) by (rewrite <- X2; discriminate).
    clear - Y1 Y2 Hvo. destruct (vo_total vo Hvo (first_var c') (first_var c)) as [T|[T|T]]; [|tauto|tauto].
    split; [exact T|]. rewrite T in *. assert (~ first_deg c' < first_deg c) by tauto. assert (~ first_deg c < first_deg c') by tauto. lia. }
  destruct EE as [EV ED]. replace (key c') with (key c) by (unfold key; rewrite EV, ED; reflexivity). apply klt_tail.
  assert (Same : forall i, good i -> is_reduced i c' = is_reduced i c).
  { intros i Gi. apply eq_true_iff_eq. rewrite (reduced_spec i c' Gi Gc'), (reduced_spec i c Gi Gc), EV, ED. reflexivity. }
  inversion Hred as [|? ? Hrc Hred']; subst.
  assert (Sub : forall X (q : poly -> bool), Forall X F' -> Forall X (filter q F')).
  { intros X q H. rewrite Forall_forall in *. intros i Hi'. apply filter_In in Hi' as [Hi' _]. apply H, Hi'. }
  apply (IH m Lm (filter (fun i => is_reduced i c) F) B m' (filter (fun i => is_reduced i c') F') B' r); try assumption.
  - rewrite Forall_forall in *. intros i Hi'. apply filter_In in Hi' as [Hi' _]. apply HF, Hi'.
  - apply Sub, HF'.
  - apply Sub, HV.
  - intros i Hi'. apply filter_In in Hi' as [Hi' Hr']. apply filter_In. split; [apply Hi, Hi'|]. rewrite Same; [exact Hr'|].
    apply (proj1 (Forall_forall _ _) HF i Hi').
  - apply filter_In. split; [exact Hr|]. rewrite Same; [exact Hrc|]. apply (proj1 (Forall_forall _ _) HF' r Hr).
Qed.

(** ** the set *)
Notation set_insert := (set_insert K cgt vo).
Notation poly_lt := (poly_lt K cgt vo).
Lemma ceqb_refl c : ceqb K c c = true. Proof. apply (ceqb_eq K HK). reflexivity. Qed.
Lemma ceqb_sym_false c c' : ceqb K c c' = false -> ceqb K c' c = false.
Proof. intros E. destruct (ceqb K c' c) eqn:X; [|reflexivity]. apply (ceqb_eq K HK) in X. subst. rewrite ceqb_refl in E. discriminate. Qed.
Lemma poly_lt_total (p q : poly) : norm p -> norm q -> p = q \/ poly_lt p q = true \/ poly_lt q p = true.
Proof.
  unfold Charset.poly_lt. revert q. induction p as [|[m c] p IH]; intros [|[m' c'] q] Np Nq; cbn [pv_comp fst snd]; try tauto.
  apply (normal_cons (mok vo) gt K) in Np as (Om & _ & _ & Np). apply (normal_cons (mok vo) gt K) in Nq as (Om' & _ & _ & Nq). cbn [fst] in *.
  destruct (mono_eqb m m') eqn:E.
  - pose proof (proj1 (mono_eqb_iff _ _) E) as <-. rewrite E. cbn [negb].
    destruct (ceqb K c c') eqn:Ec.
    + apply (ceqb_eq K HK) in Ec. subst c'. rewrite ceqb_refl. cbn [negb]. destruct (IH q Np Nq) as [->|H]; tauto.
    + rewrite (ceqb_sym_false _ _ Ec). cbn [negb]. destruct (Hcgt c c') as [->|H]; [rewrite ceqb_refl in Ec; discriminate|tauto].
  - assert (E' : mono_eqb m' m = false).
    { destruct (mono_eqb m' m) eqn:X; [|reflexivity]. apply mono_eqb_iff in X. subst. rewrite (proj2 (mono_eqb_iff m m) eq_refl) in E. discriminate. }
    rewrite E'. cbn [negb]. destruct (gt_total _ _ (ms_order S (mok vo) sm (lexS_ok vo Hvo)) m m' Om Om') as [->|H]; [|cbn [m_gt lexS] in H; tauto].
    rewrite (proj2 (mono_eqb_iff m' m') eq_refl) in E. discriminate.
Qed.
Lemma set_insert_in x l : norm x -> Forall norm l -> forall z, In z (set_insert x l) <-> z = x \/ In z l.
Proof.
  intros Nx. induction l as [|y r IH]; intros Nl z; cbn [Charset.set_insert]; [cbn; split; [intros [<-|[]]; auto|intros [->|[]]; auto]|].
  inversion Nl as [|? ? Ny Nr]; subst. destruct (poly_lt x y) eqn:E1; [cbn; split; [intros [<-|[<-|?]]; auto|intros [->|[->|?]]; auto]|].
  destruct (poly_lt y x) eqn:E2.
  - cbn [In]. rewrite (IH Nr z). split; [intros [<-|[->|?]]; auto|intros [->|[->|?]]; auto].
  - destruct (poly_lt_total x y Nx Ny) as [->|[H|H]]; [|congruence|congruence]. cbn. split; [tauto|]. intros [->|H]; auto.
Qed.
Lemma set_fold_in R : forall l, Forall norm R -> Forall norm l -> forall z, In z (fold_left (fun s x => set_insert x s) R l) <-> In z R \/ In z l.
Proof.
  induction R as [|x R IH]; intros l NR Nl z; cbn [fold_left]; [cbn; tauto|]. inversion NR as [|? ? Nx NR']; subst.
  rewrite IH; [|exact NR'|].
  - rewrite (set_insert_in x l Nx Nl z). cbn [In]. split; [intros [?|[->|?]]; auto|intros [[<-|?]|?]; auto].
  - apply Forall_forall. intros y Hy. apply (set_insert_in x l Nx Nl) in Hy as [->|Hy]; [exact Nx|]. rewrite Forall_forall in Nl. apply Nl, Hy.
Qed.

(** ** remainders *)
Lemma rev_free B : Forall good B -> StronglySorted crel B -> StronglySorted (fun c c' => vfree (first_var c) (graw c')) (rev B).
Proof.
  intros HG' HS. induction HS as [|c B HS IH HF]; [constructor|]. inversion HG' as [|? ? Gc GB]; subst. cbn [rev].
  assert (X : forall l, StronglySorted (fun c c' => vfree (first_var c) (graw c')) l -> Forall (fun d => vfree (first_var d) (graw c)) l ->
    StronglySorted (fun c c' => vfree (first_var c) (graw c')) (l ++ [c])).
  { clear. induction l as [|d l IHl]; intros HS' HF'; cbn [app]; [constructor; constructor|]. apply StronglySorted_inv in HS' as [HS' HF2].
    inversion HF'; subst. constructor; [apply IHl; assumption|]. apply Forall_app. split; [exact HF2|constructor; [assumption|constructor]]. }
  apply X; [apply IH, GB|]. apply Forall_rev. rewrite Forall_forall in *. intros d Hd. destruct (HF d Hd) as [Hv _].
  destruct (main_first c (proj1 Gc) (proj2 Gc)) as [Mc _]. apply (main_free _ _ _ _ Mc Hv).
Qed.
Lemma reduce_one B f : Forall good B -> StronglySorted crel B -> norm f ->
  exists g, (exists n0, forall fuel, (n0 <= fuel)%nat -> prem_chain fuel (rev B) f = Ok g) /\ norm g /\
    (Forall inVV B -> inVV f -> inVV g) /\ Forall (fun c => deg_lt K (graw g) (first_var c) (Z.to_N (first_deg c))) B /\
    exists i, initials K vo (map graw B) i /\ ideal K (map graw B) (rsub K (rmul i (graw f)) (graw g)).
Proof.
  intros GB SB Nf. destruct (chain_ok (rev B) ltac:(apply Forall_rev, GB) (rev_free B GB SB) f Nf) as (g & Eg & Ng & Dg & Rg & i & Hi & HI).
  exists g. split; [exact Eg|]. split; [exact Ng|]. split; [|split].
  - intros VB Vf w Hw m Hm. assert (exp m w < 1)%N; [|lia]. apply (Dg w 1%N); [| |exact Hm].
    + apply Forall_rev. rewrite Forall_forall in *. intros c Hc. apply (VB c Hc w Hw).
    + intros m' Hm'. rewrite (Vf w Hw m' Hm'). lia.
  - apply Forall_rev in Rg. rewrite rev_involutive in Rg. exact Rg.
  - exists i. rewrite map_rev in *. split.
    + eapply initials_incl; [|exact Hi]. intros c Hc. apply in_rev, Hc.
    + eapply ideal_incl'; [|exact HI]. intros c Hc. apply ideal_gen. apply in_rev, Hc.
Qed.
Lemma remainders_ok B F : Forall good B -> StronglySorted crel B -> Forall norm F ->
  exists R, (exists n0, forall fuel, (n0 <= fuel)%nat -> remainders fuel B F = Ok R) /\
    Forall nz1 R /\ Forall (fun r => exists f, In f F /\ (Forall inVV B -> inVV f -> inVV r) /\
      Forall (fun c => deg_lt K (graw r) (first_var c) (Z.to_N (first_deg c))) B /\
      exists i, ideal K (map graw B) (rsub K (rmul i (graw f)) (graw r))) R /\
    (R = [] -> Forall (fun f => exists i, initials K vo (map graw B) i /\ ideal K (map graw B) (rmul i (graw f))) F).
Proof.
  intros GB SB. induction F as [|f F IH]; intros NF.
  - exists []. split; [exists 0%nat; reflexivity|]. split; [constructor|]. split; [constructor|]. intros _. constructor.
  - inversion NF as [|? ? Nf NF']; subst. destruct (IH NF') as (R & (n1 & ER) & NR & HR & H0).
    destruct (reduce_one B f GB SB Nf) as (g & (n2 & Eg) & Ng & Vg & Dg & i & Hi & HI).
    exists (match g with [] => R | _ => g :: R end). split.
    { exists (Nat.max n1 n2). intros fuel Hf. cbn [Charset.remainders]. rewrite Eg by lia. cbn [obind]. rewrite ER by lia. reflexivity. }
    assert (HR' : Forall (fun r => exists f0, In f0 (f :: F) /\ (Forall inVV B -> inVV f0 -> inVV r) /\
      Forall (fun c => deg_lt K (graw r) (first_var c) (Z.to_N (first_deg c))) B /\
      exists i, ideal K (map graw B) (rsub K (rmul i (graw f0)) (graw r))) R).
    { eapply Forall_impl; [|exact HR]. cbv beta. intros r (f0 & Hf0 & X). exists f0. split; [right; exact Hf0|exact X]. }
    destruct g as [|t g].
    + split; [exact NR|]. split; [exact HR'|]. intros E. constructor; [|apply H0, E]. exists i. split; [exact Hi|].
      eapply ideal_eq; [|exact HI]. change (graw []) with (@r0 C). ring.
    + split; [constructor; [split; [exact Ng|discriminate]|exact NR]|]. split; [|discriminate]. constructor; [|exact HR'].
      exists f. split; [left; reflexivity|]. split; [exact Vg|]. split; [exact Dg|]. exists i. exact HI.
Qed.

(** ** the loop *)
Notation charset_loop := (charset_loop K cgt vo compress compress_v ms1 ms2 s1 s2).
Section Loop.
Context (P : list poly).
Definition linv (F : list poly) : Prop :=
  F <> [] /\ Forall nz1 F /\ Forall inVV F /\ incl P F /\ forall f, In f F -> ideal K (map graw P) (graw f).
Definition lres (Cs : list poly) : Prop :=
  Forall nz1 Cs /\ (forall c, In c Cs -> ideal K (map graw P) (graw c)) /\
  ((exists k, k <> c0 K /\ Cs = [[(mono1, k)]]) \/
   (Cs <> [] /\ Forall good Cs /\ StronglySorted crel Cs /\
    forall p, In p P -> exists i, initials K vo (map graw Cs) i /\ ideal K (map graw Cs) (rmul i (graw p)))).

Lemma stop_number n F B c B' : linv F -> basset n F = Ok B -> B = c :: B' -> is_number c = true -> lres B.
Proof.
  intros (Fne & NF & VF & HP & HI) EB -> En. pose proof (basset_inv n F _ EB NF) as (Hc & _ & n' & _ & E').
  assert (EF : filter (fun i => is_reduced i c) F = []).
  { destruct (filter (fun i => is_reduced i c) F) as [|x l] eqn:Ef; [reflexivity|exfalso]. assert (Hx : In x (filter (fun i => is_reduced i c) F)) by (rewrite Ef; left; reflexivity).
    apply filter_In in Hx as [Hx Hr]. rewrite Forall_forall in NF. destruct (NF x Hx) as [_ Nx]. unfold Charset.is_reduced in Hr. destruct x; [congruence|]. rewrite En in Hr. discriminate. }
  rewrite EF in E'. assert (B' = []) by (destruct n'; cbn in E'; congruence). subst B'.
  rewrite Forall_forall in NF. pose proof (NF c Hc) as Nc. split; [constructor; [exact Nc|constructor]|]. split; [intros x [<-|[]]; apply HI, Hc|].
  left. destruct Nc as [Nc Cne]. apply (is_number_spec vo K c Nc) in En as [?|[k ->]]; [contradiction|]. exists k. split; [|reflexivity].
  apply (nin vo K _ (mono1, k) Nc). left. reflexivity.
Qed.
Lemma loop_charset kl : Acc (kr (length V) 0) kl -> forall F n B, linv F -> basset n F = Ok B -> (match B with c :: _ => is_number c = false -> map key B = kl | [] => True end) ->
  exists Cs, (exists n0, forall fuel, (n0 <= fuel)%nat -> charset_loop fuel F = Ok Cs) /\ lres Cs.
Proof.
  intros A. induction A as [kl _ IH]. intros F n B HL EB EK. pose proof HL as (Fne & NF & VF & HP & HI).
  assert (Bne : B <> []). { intros ->. pose proof (basset_inv n F [] EB NF). congruence. }
  destruct B as [|c B']; [congruence|]. destruct (is_number c) eqn:En.
  { exists (c :: B'). split; [|eapply stop_number; eauto]. exists (Datatypes.S n). intros fuel Hf. destruct fuel as [|fuel]; [lia|]. cbn [Charset.charset_loop].
    rewrite (basset_mono n F _ fuel EB ltac:(lia)). cbn [obind]. rewrite En. reflexivity. }
  specialize (EK eq_refl). set (B := c :: B') in *.
  pose proof (basset_inv n F B EB NF) as (Hc & Hmin & _). pose proof (min_good F c NF Hmin En) as GF.
  destruct (basset_good n F B EB GF) as (GB & IB & SB).
  assert (VB : Forall inVV B). { rewrite Forall_forall in *. intros x Hx. apply VF, IB, Hx. }
  assert (NormF : Forall norm F) by (eapply Forall_impl; [|exact NF]; intros x [Hx _]; exact Hx).
  destruct (remainders_ok B F GB SB NormF) as (R & (n1 & ER) & NR & HR & H0).
  assert (Unf : forall fuel, (Nat.max n n1 <= fuel)%nat -> charset_loop (Datatypes.S fuel) F =
    match R with [] => Ok B | _ => charset_loop fuel (fold_left (fun s x => set_insert x s) R F) end).
  { intros fuel Hf. cbn [Charset.charset_loop]. rewrite (basset_mono n F _ fuel EB ltac:(lia)). cbn [obind]. unfold B. rewrite En. fold B.
    rewrite ER by lia. reflexivity. }
  destruct R as [|r R'].
  - exists B. split; [exists (Datatypes.S (Nat.max n n1)); intros fuel Hf; destruct fuel as [|fuel]; [lia|]; apply Unf; lia|].
    split; [rewrite Forall_forall in *; intros x Hx; apply NF, IB, Hx|]. split; [intros x Hx; apply HI, IB, Hx|]. right.
    split; [exact Bne|]. split; [exact GB|]. split; [exact SB|]. intros p Hp. specialize (H0 eq_refl). rewrite Forall_forall in H0. apply H0, HP, Hp.
  - set (R := r :: R') in *. set (F' := fold_left (fun s x => set_insert x s) R F) in *.
    assert (NormR : Forall norm R) by (eapply Forall_impl; [|exact NR]; intros x [Hx _]; exact Hx).
    assert (In' : forall z, In z F' <-> In z R \/ In z F) by (intros z; apply set_fold_in; assumption).
    assert (IB' : forall z, ideal K (map graw B) z -> ideal K (map graw P) z).
    { intros z Hz. eapply ideal_incl'; [|exact Hz]. intros g Hg. apply in_map_iff in Hg as (b & <- & Hb). apply HI, IB, Hb. }
    assert (HL' : linv F').
    { split; [intros E; assert (X : In r F') by (apply In'; left; left; reflexivity); rewrite E in X; destruct X|].
      split; [apply Forall_forall; intros z Hz; apply In' in Hz as [Hz|Hz]; [rewrite Forall_forall in NR; apply NR, Hz|rewrite Forall_forall in NF; apply NF, Hz]|].
      split; [|split].
      - apply Forall_forall. intros z Hz. apply In' in Hz as [Hz|Hz]; [|rewrite Forall_forall in VF; apply VF, Hz].
        rewrite Forall_forall in HR. destruct (HR z Hz) as (f & Hf & Hv & _). apply Hv; [exact VB|]. rewrite Forall_forall in VF. apply VF, Hf.
      - intros p Hp. apply In'. right. apply HP, Hp.
      - intros z Hz. apply In' in Hz as [Hz|Hz]; [|apply HI, Hz].
        rewrite Forall_forall in HR. destruct (HR z Hz) as (f & Hf & _ & _ & i & Hi). apply IB' in Hi.
        apply (ideal_eq K _ (radd (rmul i (graw f)) (rmul (ropp K (Spec.r1 K)) (rsub K (rmul i (graw f)) (graw z))))); [ring|].
        apply ideal_add; [apply ideal_mul, HI, Hf|apply ideal_mul, Hi]. }
    destruct (basset_ex (length F') F' (le_n _) (proj1 (proj2 HL'))) as [B2 E2].
    assert (Acc' : exists Cs, (exists n0, forall fuel, (n0 <= fuel)%nat -> charset_loop fuel F' = Ok Cs) /\ lres Cs).
    { destruct B2 as [|c2 B2']; [pose proof (basset_inv _ F' [] E2 (proj1 (proj2 HL'))); destruct HL'; congruence|].
      destruct (is_number c2) eqn:En2.
      - exists (c2 :: B2'). split; [|eapply stop_number; eauto]. exists (Datatypes.S (length F')). intros fuel Hf. destruct fuel as [|fuel]; [lia|]. cbn [Charset.charset_loop].
        rewrite (basset_mono _ F' _ fuel E2 ltac:(lia)). cbn [obind]. rewrite En2. reflexivity.
      - pose proof (basset_inv _ F' _ E2 (proj1 (proj2 HL'))) as (Hc2 & Hmin2 & _). pose proof (min_good F' c2 (proj1 (proj2 HL')) Hmin2 En2) as GF'.
        destruct (basset_good _ F' _ E2 GF') as (GB2 & IB2 & SB2). pose proof HL' as (_ & _ & VF' & _).
        assert (VB2 : Forall inVV (c2 :: B2')). { rewrite Forall_forall in *. intros x Hx. apply VF', IB2, Hx. }
        apply (IH (map key (c2 :: B2'))) with (n := length F') (B := c2 :: B2'); try assumption; [|auto].
        split; [apply kval_chain; try assumption; apply Forall_forall; intros; lia|]. rewrite <- EK.
        assert (Hr : In r F') by (apply In'; left; left; reflexivity). pose proof (proj1 (Forall_forall _ _) GF' r Hr) as Gr.
        apply (basset_lower n F B (length F') F' (c2 :: B2') r); try assumption.
        + intros z Hz. apply In'. right. exact Hz.
        + pose proof (Forall_inv HR) as (f & _ & _ & HD' & _). rewrite Forall_forall in *. intros b Hb. apply reduced_of_deg; [exact Gr|apply GB, Hb|apply HD', Hb]. }
    destruct Acc' as (Cs & (n2 & E) & HCs). exists Cs. split; [|exact HCs]. exists (Datatypes.S (Nat.max (Nat.max n n1) n2)). intros fuel Hf. destruct fuel as [|fuel]; [lia|].
    rewrite Unf by lia. unfold R. fold R. apply E. lia.
Qed.
End Loop.
End P.
