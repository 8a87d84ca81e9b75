(** * The modular gcd step (Gcd.v, [mod_gcd]): degree and shape of every result. *)
From Coq Require Import Ring_theory Ring Setoid Morphisms.
From Verif Require Import Prelude Coef Spec SpecProofs SpecOps SpecOpsProofs GcdDom GcdPoly GcdMath OrderSpec PairVec PairVecProofs
  Mono MonoProofs MonoStruct MonoStructProofs Heap Poly PolyMulProofs Div PolyDivProofs PolyOps MonoOpsProofs PolyOpsGen PolyOpsProofs
  PolyOps2Proofs PolyOps3Proofs Gcd GcdHom GcdLex.
Local Open Scope Z_scope.

Section Zp.
Context (vo : vorder) (Hvo : vorder_ok vo).
Context {C : Type} (K : coefs C) (HF : field_ok K).
Let HD : domain_ok K := field_domain K HF.
Let HK : ring_ok K := domain_ring K HD.
Let HG : cgcd_ok K := field_cgcd K HF.
Local Existing Instance HK.
Add Ring Kring : (ring_laws K HK).
Add Ring Rring : (rring K HK) (setoid (req_equiv K) (rring_ext K HK)).
Notation S := (lexS vo).
Notation gt := (lex_gt vo).
Notation norm := (normal (mok vo) gt K).
Notation graw := (graw sm).
Notation poly := (poly C).
Notation "a == b" := (req K a b) (at level 70).
Notation "a %| b" := (rdivides K a b) (at level 70).
Notation "0c" := (c0 K).
Let M1 := lexS_ok vo Hvo.
Let HO := ms_order S (mok vo) sm M1.

(** only the variable [x] occurs *)
Definition only (x : var) (p : poly) : Prop := vars_P (eq x) p.
Variable rcomp : poly -> poly -> outcome (option (poly * poly)).
Hypothesis Hrc : forall x F G, norm F -> norm G -> only x F -> only x G -> drcomp_good S (mok vo) sm K rcomp F G.

Lemma zdivrem_ok f F g G Q R : norm F -> norm (g :: G) -> drcomp_good S (mok vo) sm K rcomp F (g :: G) ->
  zdivrem K vo rcomp f F (g :: G) = Ok (Q, R) -> divrem_ok S (mok vo) sm K F (g :: G) Q R g.
Proof.
  intros NF NG HC E.
  destruct (p_div_rem_ok S (mok vo) sm K M1 HK HF rcomp F (g :: G) g G HC NF NG eq_refl) as (Q' & R' & X & T).
  assert (Y : (Q, R) = (Q', R')).
  { apply (fuel_agree (fun f => zdivrem K vo rcomp f F (g :: G)) f); [apply pair_vec_div_rem_mono|exact E|exact T]. }
  injection Y as -> ->. exact X.
Qed.

(** a division of univariate polynomials has univariate results *)
Lemma divrem_only x F g G Q R : norm (g :: G) -> only x F -> norm F -> only x (g :: G) ->
  divrem_ok S (mok vo) sm K F (g :: G) Q R g -> only x R.
Proof.
  intros NG OF NF OG X. pose proof X as (NQ & NR & IR & E).
  apply Forall_forall. intros t Ht v Hv. destruct (N.eq_dec x v) as [e|n]; [exact e|]. exfalso.
  assert (HSS : S = lexS vo \/ S = grlexS vo) by (left; reflexivity).
  destruct (cls_spec vo Hvo S HSS K HK v 0 Q NQ (Z.le_refl 0)) as [NQ' EQ'].
  destruct (cls_spec vo Hvo S HSS K HK v 0 R NR (Z.le_refl 0)) as [NR' ER'].
  assert (FF : forall p, norm p -> only x p -> rcoeff K v 0 (graw p) == graw p).
  { intros p Np Op. assert (Fr : vfree K v (graw p)).
    { apply (vfree_zexp vo Hvo K HD p v Np). eapply Forall_impl; [|exact Op]. cbv beta. intros u Hu.
      destruct (Z.eq_dec (zexp (fst u) v) 0) as [e|ne]; [exact e|]. exfalso. apply n, (Hu v ne). }
    transitivity (rcoeff K v 0 (rmul K (graw p) (rmono K [(v, 0%N)]))).
    - apply (rcoeff_proper K HK v 0%N). assert (Q1 : rmono K [(v, 0%N)] == r1 K).
      { apply (req_single K); [|reflexivity]. intros w. cbn [exp]. destruct (N.eqb v w); reflexivity. }
      rewrite Q1. ring.
    - rewrite (rcoeff_shift K HD v 0%N 0%N (graw p) Fr). reflexivity. }
  assert (X' : divrem_ok S (mok vo) sm K F (g :: G) (cls vo v 0 Q) (cls vo v 0 R) g).
  { split; [exact NQ'|]. split; [exact NR'|]. split.
    - apply Forall_forall. intros u Hu D. pose proof (in_supp vo Hvo K HD _ u NR' Hu) as Su. rewrite (ER' _) in Su. cbn [Z.to_N] in Su.
      rewrite (coef_rcoeff K HK) in Su. destruct (N.eqb_spec (exp (sm (fst u)) v) 0) as [Ev|]; [|congruence].
      apply (supp_in vo Hvo K HD R _ NR) in Su as (t' & Ht' & Et').
      unfold irreducible_by in IR. rewrite Forall_forall in IR. apply (IR t' Ht'). intros w. specialize (D w).
      rewrite (exp_sm_mok vo (fst t')); [|apply (nin vo K R t' NR Ht')]. rewrite <- (Et' w). cbn [exp]. rewrite exp_mdrop.
      destruct (N.eqb_spec v w) as [ew|nw], (N.eqb_spec w v) as [ew2|nw2]; subst; try congruence; lia.
    - rewrite EQ', ER', <- (FF F NF OF), E at 1. cbn [Z.to_N].
      rewrite (rcoeff_add K). apply (radd_proper K HK); [|reflexivity].
      rewrite (rcoeff0_mul K HD). apply (rmul_proper K HK); [reflexivity|]. apply FF; assumption. }
  destruct (divrem_unique S (mok vo) sm K M1 HK HD F (g :: G) _ _ _ _ g G NG eq_refl X X') as [_ ER].
  assert (Fr : vfree K v (graw R)). { rewrite ER, ER'. apply (rcoeff_free K HD). }
  apply (vfree_zexp vo Hvo K HD R v NR) in Fr. rewrite Forall_forall in Fr. apply Hv, Fr, Ht.
Qed.

Lemma mod_euclid_ok x f : forall P R Res, norm P -> norm R -> P <> [] -> only x P -> only x R ->
  mod_euclid K vo rcomp f P R = Ok Res ->
  norm Res /\ Res <> [] /\ only x Res /\ forall D, D %| graw P -> D %| graw R -> D %| graw Res.
Proof.
  induction f as [|f IH]; intros P R Res NP NR Pne OP OR E; cbn [mod_euclid] in E; [discriminate|].
  destruct R as [|r R]; [injection E as <-; auto|].
  destruct (zdivrem K vo rcomp f P (r :: R)) as [[Q R']| | |] eqn:Ed; try discriminate. cbn [obind snd] in E.
  pose proof (zdivrem_ok f P r R Q R' NP NR (Hrc x _ _ NP NR OP OR) Ed) as X. pose proof X as (NQ & NR' & _ & EQ).
  pose proof (divrem_only x P r R Q R' NR OP NP OR X) as OR'.
  destruct (IH (r :: R) R' Res NR NR' ltac:(discriminate) OR OR' E) as (A1 & A2 & A3 & A4).
  split; [exact A1|]. split; [exact A2|]. split; [exact A3|]. intros D D1 D2. apply A4; [exact D2|].
  assert (ER : graw R' == rsub K (graw P) (rmul K (graw Q) (graw (r :: R)))) by (rewrite EQ; ring).
  apply (rdivides_proper K HD D D (reflexivity D) _ _ ER). apply (rd_sub K HD); [exact D1|apply (rd_mull K HD), D2].
Qed.

(** ** the contract *)
Definition mod_pre (x : var) (F G Lc : poly) : Prop :=
  norm F /\ norm G /\ norm Lc /\ x <> 0%N /\ first_var F = x /\ first_var G = x /\
  graw Lc %| rcoeff K x (Z.to_N (first_deg F)) (graw F).
Definition mod_res (x : var) (F G P : poly) (d : Z) : Prop :=
  norm P /\ 0 <= d /\ Forall (fun t => zexp (fst t) x <= d) P /\ Exists (fun t => zexp (fst t) x = d) P /\
  (forall Pr, vars_P Pr F -> vars_P Pr G -> vars_P Pr P) /\
  (forall D, D %| graw F -> D %| graw G -> deg_le K D x (Z.to_N d)).

Lemma norm_scale c (p : poly) : c <> 0c -> norm p -> norm (map (fun u => (fst u, cmul K (snd u) c)) p) /\
  graw (map (fun u => (fst u, cmul K (snd u) c)) p) == rmul K (rconst c) (graw p).
Proof.
  intros Hc (A & D & Z). split.
  - split; [|split].
    + unfold all_ok in *. rewrite Forall_map. exact A.
    + unfold desc in *. rewrite map_map. exact D.
    + unfold nonzero in *. rewrite Forall_map. eapply Forall_impl; [|exact Z]. cbn [snd]. intros t Ht E.
      apply (domain_integral K HD) in E as [E|E]; contradiction.
  - clear A D Z. induction p as [|t p IH]; [reflexivity|]. cbn [map].
    transitivity (radd [(sm (fst t), cmul K (snd t) c)] (rmul K (rconst c) (graw p))).
    + apply (radd_proper K HK [(sm (fst t), cmul K (snd t) c)] _ (reflexivity _) _ _ IH).
    + change (graw (t :: p)) with (radd [(sm (fst t), snd t)] (graw p)).
      assert (X : [(sm (fst t), cmul K (snd t) c)] == rmul K (rconst c) [(sm (fst t), snd t)]).
      { cbn. apply (req_single K); [reflexivity|]. ring. }
      rewrite X. ring.
Qed.
Lemma unit_nz a : a <> 0c -> cquo K (c1 K) a <> 0c.
Proof.
  intros Ha E. pose proof (field_quo K HF (c1 K) a Ha) as X. rewrite E in X. apply (domain_nontrivial K HD). rewrite <- X. ring.
Qed.
Lemma only_deg x t (p : poly) : norm (t :: p) -> only x (t :: p) -> x <> 0%N -> first_deg (t :: p) = zexp (fst t) x /\ topp vo x (t :: p).
Proof.
  intros N O Nx. destruct (nin vo K _ t N (or_introl eq_refl)) as [Ot _]. split.
  - cbn [first_deg]. unfold mfirst_deg. destruct (md (fst t)) as [|[w e] l] eqn:El.
    + unfold zexp. rewrite El. reflexivity.
    + pose proof (ex_in vo Hvo (md (fst t)) w e (mok_dok vo _ Ot)) as X. rewrite El in X. specialize (X (or_introl eq_refl)).
      assert (Pe : 0 < e). { pose proof (mok_dok vo _ Ot) as Od. rewrite El in Od. apply dok_cons in Od as (Y & _). exact Y. }
      assert (Ew : x = w). { apply (Forall_inv O w). unfold zexp. rewrite El, X. lia. }
      subst w. unfold zexp. rewrite El. symmetry. exact X.
  - apply Forall_forall. intros u Hu. apply (topm_of vo Hvo); [apply (nin vo K _ u N Hu)|]. intros w Hw. left.
    unfold only, vars_P in O. rewrite Forall_forall in O. symmetry. apply (O u Hu). lia.
Qed.

Lemma mod_base_ok x f F G Lc deg P d : mod_pre x F G Lc -> only x F -> only x G ->
  mod_base K vo rcomp f F G Lc deg = Ok (Some (P, d)) -> mod_res x F G P d.
Proof.
  intros (NF & NG & NL & Nx & EF & EG & _) OF OG E. unfold mod_base in E.
  destruct (first_spec vo Hvo K HD G x NG EG Nx) as (g & G' & HGe & TG & DG & PG & LG & _). subst G.
  destruct (zdivrem K vo rcomp f F (g :: G')) as [[Q R]| | |] eqn:Ed; try discriminate. cbn [obind snd] in E.
  pose proof (zdivrem_ok f F g G' Q R NF NG (Hrc x _ _ NF NG OF OG) Ed) as X. pose proof X as (NQ & NR & _ & EQ).
  pose proof (divrem_only x F g G' Q R NG OF NF OG X) as OR.
  destruct (mod_euclid K vo rcomp f (g :: G') R) as [Res| | |] eqn:Ee; try discriminate. cbn [obind] in E.
  destruct (mod_euclid_ok x f _ _ _ NG NR ltac:(discriminate) OG OR Ee) as (A1 & A2 & A3 & A4).
  unfold lc_const in E. destruct Lc as [|[m c] [|]]; try discriminate. destruct (mempty m); try discriminate. cbn [obind] in E.
  destruct Res as [|t Res]; [discriminate|]. set (P' := map _ (t :: Res)) in E.
  destruct (first_deg P' <=? deg); [|discriminate]. injection E as <- <-.
  assert (Nc : c <> 0c). { apply (nin vo K _ _ NL (or_introl eq_refl)). }
  assert (Nu : cmul K (cquo K (c1 K) (snd t)) c <> 0c).
  { intros Z. apply (domain_integral K HD) in Z as [Z|Z]; [|contradiction]. revert Z. apply unit_nz. apply (nin vo K _ t A1 (or_introl eq_refl)). }
  destruct (norm_scale _ (t :: Res) Nu A1) as [NP RP]. fold P' in NP, RP.
  assert (OP : only x P'). { unfold P', only, vars_P. rewrite Forall_map. exact A3. }
  assert (Nt : exists t' r', P' = t' :: r') by (eexists _, _; reflexivity). destruct Nt as (t' & r' & EP).
  match goal with |- mod_res _ _ _ _ ?dd => change dd with (first_deg P') end.
  rewrite EP in NP, OP, RP |- *. destruct (only_deg x t' r' NP OP Nx) as [Ed' TP].
  pose proof (topp_head vo Hvo K x t' r' NP (Forall_inv TP)) as [_ LP].
  assert (Nn : 0 <= first_deg (t' :: r')). { rewrite Ed'. apply (zexp_nonneg vo). apply (nin vo K _ t' NP (or_introl eq_refl)). }
  split; [exact NP|]. split; [exact Nn|]. split; [rewrite Ed'; exact LP|]. split; [rewrite Ed'; left; reflexivity|]. split.
  - intros Pr VF VG. eapply Forall_impl; [|exact OP]. cbv beta. intros u Hu w Hw. rewrite <- (Hu w Hw).
    apply (Forall_inv VG x). lia.
  - intros D D1 D2. apply (dvd_deg K HD HG D (graw (t' :: r'))).
    + apply (rdivides_proper K HD D D (reflexivity D) _ _ RP). apply (rd_mull K HD). apply A4; [exact D2|].
      assert (ER : graw R == rsub K (graw F) (rmul K (graw Q) (graw (g :: G')))) by (rewrite EQ; ring).
      apply (rdivides_proper K HD D D (reflexivity D) _ _ ER). apply (rd_sub K HD); [exact D1|apply (rd_mull K HD), D2].
    + apply (nz_iff vo Hvo K HD); [exact NP|discriminate].
    + apply (deg_is_zexp vo Hvo K HD); [exact NP|exact Nn|rewrite Ed'; exact LP|rewrite Ed'; left; reflexivity].
Qed.

(** ** the last variable *)
Lemma mlast_spec m : mok vo m -> match mlast m with
  | None => forall w, zexp m w = 0
  | Some (w, e) => zexp m w = e /\ 0 < e /\ forall u, zexp m u <> 0 -> u = w \/ vo u w = true
  end.
Proof.
  intros H. unfold mlast. destruct (rev (md m)) as [|[w e] r] eqn:Er.
  - assert (E : md m = []) by (rewrite <- (rev_involutive (md m)), Er; reflexivity). intros u. unfold zexp. rewrite E. reflexivity.
  - assert (E : md m = rev r ++ [(w, e)]) by (rewrite <- (rev_involutive (md m)), Er; reflexivity).
    pose proof (mok_dok vo m H) as Hd. assert (I1 : In (w, e) (md m)) by (rewrite E; apply in_or_app; right; left; reflexivity).
    assert (Ee : zexp m w = e) by (apply (ex_in vo Hvo (md m) w e Hd I1)).
    split; [exact Ee|]. split.
    { destruct Hd as [_ Hp]. rewrite Forall_forall in Hp. apply (Hp _ I1). }
    intros u Hu. assert (Pu : 0 < zexp m u) by (pose proof (zexp_nonneg vo m u H); lia).
    apply (ex_pos_in vo Hvo (md m) u Hd) in Pu. rewrite E, map_app in Pu. apply in_app_or in Pu as [Pu|[Pu|[]]]; [right|left; symmetry; exact Pu].
    destruct Hd as [Hd _]. rewrite E in Hd. unfold desc in Hd. rewrite map_app in Hd. cbn [map fst] in Hd.
    clear - Hd Pu. induction (map fst (rev r)) as [|a l IH]; [destruct Pu|]. cbn [app] in Hd. inversion Hd as [|? ? Hd' Fa]; subst.
    destruct Pu as [->|Pu]; [|apply IH; assumption]. rewrite Forall_forall in Fa. apply Fa, in_or_app. right. left. reflexivity.
Qed.
Definition occ (p : poly) (w : var) : Prop := Exists (fun t => zexp (fst t) w <> 0) p.
Lemma occ_dec p w : {occ p w} + {~ occ p w}.
Proof. apply Exists_dec. intros t. destruct (Z.eq_dec (zexp (fst t) w) 0); [right; congruence|left; assumption]. Qed.
Lemma last_go (l p : poly) v d : all_ok (mok vo) l ->
  occ p v -> (forall u, occ p u -> u = v \/ vo u v = true) ->
  let '(w, _) := fold_left (fun '(v, d) t =>
    match mlast (fst t) with
    | None => (v, d)
    | Some (w, e) => if vo v w then (w, e) else if N.eqb v w && (d <? e) then (v, e) else (v, d)
    end) l (v, d) in occ (p ++ l) w /\ forall u, occ (p ++ l) u -> u = w \/ vo u w = true.
Proof.
  revert p v d. induction l as [|t l IH]; intros p v d A O H; cbn [fold_left]; [rewrite app_nil_r; auto|].
  replace (p ++ t :: l) with ((p ++ [t]) ++ l) by (rewrite <- app_assoc; reflexivity).
  inversion A as [|? ? At Al]; subst.
  pose proof (mlast_spec (fst t) At) as L. destruct (mlast (fst t)) as [[w e]|].
  - destruct L as (Ee & Pe & Lu). destruct (vo v w) eqn:V; [|destruct (N.eqb v w && (d <? e))].
    + apply IH; [exact Al| |].
      * apply Exists_app. right. left. lia.
      * intros u Hu. apply Exists_app in Hu as [Hu|Hu].
        { right. destruct (H u Hu) as [->|X]; [exact V|apply (vo_trans vo Hvo u v w); assumption]. }
        { apply Lu. inversion Hu as [? ? X|? ? X]; [exact X|inversion X]. }
    + apply IH; [exact Al|apply Exists_app; left; exact O|]. intros u Hu. apply Exists_app in Hu as [Hu|Hu]; [apply H, Hu|].
      assert (Hu' : zexp (fst t) u <> 0) by (inversion Hu as [? ? X|? ? X]; [exact X|inversion X]).
      destruct (Lu u Hu') as [->|X].
      * destruct (vo_total vo Hvo v w) as [->|[Y|Y]]; [left; reflexivity|congruence|right; exact Y].
      * destruct (vo_total vo Hvo v w) as [->|[Y|Y]]; [right; exact X|congruence|right; apply (vo_trans vo Hvo u w v); assumption].
    + apply IH; [exact Al|apply Exists_app; left; exact O|]. intros u Hu. apply Exists_app in Hu as [Hu|Hu]; [apply H, Hu|].
      assert (Hu' : zexp (fst t) u <> 0) by (inversion Hu as [? ? X|? ? X]; [exact X|inversion X]).
      destruct (Lu u Hu') as [->|X].
      * destruct (vo_total vo Hvo v w) as [->|[Y|Y]]; [left; reflexivity|congruence|right; exact Y].
      * destruct (vo_total vo Hvo v w) as [->|[Y|Y]]; [right; exact X|congruence|right; apply (vo_trans vo Hvo u w v); assumption].
  - apply IH; [exact Al|apply Exists_app; left; exact O|]. intros u Hu. apply Exists_app in Hu as [Hu|Hu]; [apply H, Hu|].
    inversion Hu as [? ? X|? ? X]; [rewrite L in X; congruence|inversion X].
Qed.
Lemma last_spec (p : poly) x : norm p -> first_var p = x -> x <> 0%N ->
  occ p (fst (last_var_deg vo p)) /\ forall u, occ p u -> u = fst (last_var_deg vo p) \/ vo u (fst (last_var_deg vo p)) = true.
Proof.
  intros N E Nx. unfold last_var_deg. rewrite E.
  destruct (first_spec vo Hvo K HD p x N E Nx) as (t & r & -> & T & D & P & _).
  set (d0 := first_deg (t :: r)) in *. clearbody d0. cbn [fold_left].
  pose proof (mlast_spec (fst t) (proj1 (nin vo K _ t N (or_introl eq_refl)))) as L.
  assert (Tt : forall u, zexp (fst t) u <> 0 -> u = x \/ vo x u = true).
  { intros u Hu. apply (topp_occ vo Hvo K (t :: r) x t u N T (or_introl eq_refl) Hu). }
  assert (O1 : forall u, occ [t] u -> zexp (fst t) u <> 0) by (intros u Hu; inversion Hu as [? ? X|? ? X]; [exact X|inversion X]).
  destruct (mlast (fst t)) as [[w e]|]; [|rewrite L in D; lia]. destruct L as (Ee & Pe & Lu).
  assert (Ar : all_ok (mok vo) r). { destruct N as (A & _). inversion A; assumption. }
  assert (G : forall v0 d1, v0 = w -> let '(w0, _) := fold_left (fun '(v, d) t0 =>
     match mlast (fst t0) with
     | Some (w1, e0) => if vo v w1 then (w1, e0) else if (v =? w1)%N && (d <? e0) then (v, e0) else (v, d)
     | None => (v, d) end) r (v0, d1) in occ (t :: r) w0 /\ forall u, occ (t :: r) u -> u = w0 \/ vo u w0 = true).
  { intros v0 d1 ->. change (t :: r) with ([t] ++ r). apply (last_go r [t] w d1 Ar); [left; lia|]. intros u Hu. apply Lu, O1, Hu. }
  assert (Ew : vo x w = false -> x = w).
  { intros V. destruct (Tt w) as [->|X]; [lia|reflexivity|congruence]. }
  destruct (vo x w) eqn:V; [|destruct ((x =? w)%N && (d0 <? e))].
  - specialize (G w e eq_refl). destruct (fold_left _ r (w, e)) as [w0 e0]. exact G.
  - specialize (G x e (Ew eq_refl)). destruct (fold_left _ r (x, e)) as [w0 e0]. exact G.
  - specialize (G x d0 (Ew eq_refl)). destruct (fold_left _ r (x, d0)) as [w0 e0]. exact G.
Qed.

(** ** interpolation *)
Section Interp.
Variable v : var.
Definition above (m : mono) : Prop := forall w, zexp m w <> 0 -> vo w v = true.
Definition push (m : mono) (j : nat) : mono := match j with O => m | _ => mono_push m (v, Z.of_nat j) end.
Lemma above_v m : above m -> zexp m v = 0.
Proof. intros H. destruct (Z.eq_dec (zexp m v) 0) as [e|n]; [exact e|]. pose proof (H v n) as X. rewrite (vo_irrefl vo Hvo) in X. discriminate. Qed.
Lemma push_spec m j : mok vo m -> above m -> mok vo (push m j) /\ forall w, zexp (push m j) w = if N.eqb w v then Z.of_nat j else zexp m w.
Proof.
  intros Hm Ha. destruct j as [|j]; cbn [push].
  - split; [exact Hm|]. intros w. destruct (N.eqb_spec w v) as [->|]; [apply above_v, Ha|reflexivity].
  - set (J := Z.of_nat (Datatypes.S j)). assert (PJ : 0 < J) by (unfold J; lia). clearbody J. split.
    + destruct Hm as (D & P & E). unfold mono_push. split; [|split]; cbn [md mg].
      * unfold desc in *. rewrite map_app. cbn [map fst].
        assert (Fv : Forall (fun w => vo w v = true) (map fst (md m))).
        { apply Forall_forall. intros w Hw. apply Ha. assert (X : 0 < zexp m w) by (apply (ex_pos_in vo Hvo (md m) w); [split; assumption|exact Hw]). lia. }
        clear - D Fv. induction (map fst (md m)) as [|a l IH]; cbn [app]; [repeat constructor|].
        inversion D as [|? ? D1 D2]; inversion Fv as [|? ? F1 F2]; subst. constructor; [apply IH; assumption|].
        apply Forall_app. split; [exact D2|repeat constructor; exact F1].
      * apply Forall_app. split; [exact P|]. repeat constructor. exact PJ.
      * cbn [snd]. rewrite E. clear. induction (md m) as [|a l IH]; cbn [app deg_sum fold_right] in *; [unfold deg_sum; cbn; lia|]. unfold deg_sum in *. cbn [map fold_right app] in *. lia.
    + intros w. unfold mono_push, zexp. cbn [md]. rewrite (csum_app Zc Zc_ring). cbn [csum fst snd]. fold (zexp m w). cbn [cadd Zc c0].
      destruct (N.eqb_spec w v) as [->|n]; [rewrite (above_v m Ha); lia|lia].
Qed.
Lemma push_gt m i j : mok vo m -> above m -> (j < i)%nat -> gt (push m i) (push m j) = true.
Proof.
  intros Hm Ha L. destruct (push_spec m i Hm Ha) as [Oi Xi]. destruct (push_spec m j Hm Ha) as [Oj Xj].
  apply (lex_gt_spec vo Hvo); [assumption|assumption|]. exists v. rewrite (Xi v), (Xj v), N.eqb_refl. split; [lia|].
  intros w Hw. rewrite (Xi w), (Xj w). destruct (N.eqb_spec w v) as [->|]; [rewrite (vo_irrefl vo Hvo) in Hw; discriminate|reflexivity].
Qed.
Lemma push_gt2 m m' i j : mok vo m -> above m -> mok vo m' -> above m' -> gt m m' = true -> gt (push m i) (push m' j) = true.
Proof.
  intros Hm Ha Hm' Ha' G. apply (lex_gt_spec vo Hvo) in G as (w & L & E); [|assumption|assumption].
  destruct (push_spec m i Hm Ha) as [Oi Xi]. destruct (push_spec m' j Hm' Ha') as [Oj Xj].
  assert (Vw : vo w v = true). { apply Ha. pose proof (zexp_nonneg vo m' w Hm'). lia. }
  apply (lex_gt_spec vo Hvo); [assumption|assumption|]. exists w. rewrite (Xi w), (Xj w).
  destruct (N.eqb_spec w v) as [->|_]; [rewrite (vo_irrefl vo Hvo) in Vw; discriminate|]. split; [exact L|].
  intros u Hu. rewrite (Xi u), (Xj u). destruct (N.eqb_spec u v) as [->|_]; [|apply E, Hu].
  pose proof (vo_trans vo Hvo _ _ _ Hu Vw) as X. rewrite (vo_irrefl vo Hvo) in X. discriminate.
Qed.
Lemma interp_in pts e t : In t (interp_term K v pts e) <->
  exists j, (j < length pts)%nat /\ interp_coef K pts (snd e) j <> 0c /\ t = (push (fst e) j, interp_coef K pts (snd e) j).
Proof.
  unfold interp_term. rewrite in_flat_map. split.
  - intros (j & Hj & Ht). apply in_rev in Hj. apply in_seq in Hj. exists j. split; [lia|].
    destruct (is0_spec K HK (interp_coef K pts (snd e) j)) as [E|E]; [destruct Ht|]. destruct Ht as [<-|[]]. split; [exact E|]. destruct j; reflexivity.
  - intros (j & Hj & E & ->). exists j. split; [apply -> in_rev; apply in_seq; lia|].
    destruct (is0_spec K HK (interp_coef K pts (snd e) j)) as [E'|E']; [contradiction|]. left. destruct j; reflexivity.
Qed.
Lemma interp_term_norm pts e : mok vo (fst e) -> above (fst e) -> norm (interp_term K v pts e).
Proof.
  intros Hm Ha. unfold interp_term. generalize (interp_coef K pts (snd e)). intros ic.
  induction (length pts) as [|n IH]; [split; [constructor|split; constructor]|].
  rewrite seq_S, rev_app_distr. cbn [rev app flat_map Nat.add]. destruct (is0_spec K HK (ic n)) as [E|E]; [exact IH|].
  cbn [app]. apply (normal_cons (mok vo) gt K). cbn [fst snd].
  replace (match n with 0%nat => fst e | Datatypes.S _ => mono_push (fst e) (v, Z.of_nat n) end) with (push (fst e) n) by (destruct n; reflexivity).
  split; [apply (push_spec (fst e) n Hm Ha)|]. split; [exact E|]. split; [|exact IH].
  apply Forall_forall. intros u Hu. apply in_flat_map in Hu as (j & Hj & Hu). apply in_rev, in_seq in Hj.
  destruct (is0 K (ic j)); [destruct Hu|]. destruct Hu as [<-|[]]. cbn [fst].
  replace (match j with 0%nat => fst e | Datatypes.S _ => mono_push (fst e) (v, Z.of_nat j) end) with (push (fst e) j) by (destruct j; reflexivity).
  apply push_gt; [assumption|assumption|lia].
Qed.
Lemma interp_norm pts V : Forall (fun e => mok vo (fst e) /\ above (fst e)) V -> desc gt V -> norm (interp K v pts V).
Proof.
  induction V as [|e V IH]; intros A D; [split; [constructor|split; constructor]|]. cbn [interp flat_map].
  inversion A as [|? ? [Oe Ae] A']; subst. apply (desc_cons gt) in D as [D G].
  apply (norm_app S (mok vo) K). split; [apply interp_term_norm; assumption|]. split; [apply IH; assumption|].
  apply Forall_forall. intros t Ht. apply interp_in in Ht as (j & _ & _ & ->). cbn [fst].
  apply Forall_forall. intros u Hu. apply in_flat_map in Hu as (e' & He' & Hu). apply interp_in in Hu as (i & _ & _ & ->). cbn [fst].
  rewrite Forall_forall in A', G. destruct (A' e' He') as [O' A2]. apply push_gt2; try assumption. apply G, He'.
Qed.

(** ** merging images *)
Lemma vmerge_spec n V : forall P, Forall (fun e => mok vo (fst e)) V -> desc gt V -> norm P ->
  let W := vmerge K vo n V P in
  desc gt W /\
  (forall e', In e' W -> (exists e c, In e V /\ fst e' = fst e /\ snd e' = snd e ++ [c]) \/
                         (exists t, In t P /\ fst e' = fst t /\ snd e' = repeat 0c (n - 1) ++ [snd t])) /\
  (forall t, In t P -> exists e', In e' W /\ fst e' = fst t /\ exists l, snd e' = l ++ [snd t]).
Proof.
  induction V as [|e V IH]; intros P AV DV NP W.
  - subst W. cbn [vmerge]. split; [|split].
    + unfold desc. rewrite map_map. cbn [fst]. apply NP.
    + intros e' He'. apply in_map_iff in He' as (t & <- & Ht). right. exists t. auto.
    + intros t Ht. eexists. split; [apply in_map_iff; exists t; split; [reflexivity|exact Ht]|]. cbn [fst snd]. split; [reflexivity|eauto].
  - inversion AV as [|? ? Oe AV']; subst. pose proof DV as DV0. apply (desc_cons gt) in DV as [DV Ge].
    induction P as [|t P IHP].
    + subst W. cbn [vmerge]. split; [|split].
      * unfold desc. rewrite map_map. exact DV0.
      * intros e' He'. apply in_map_iff in He' as (e0 & <- & He0). left. exists e0, 0c. auto.
      * intros t [].
    + pose proof NP as NP0. apply (normal_cons (mok vo) gt K) in NP as (Ot & Zt & Gt & NP).
      specialize (IHP NP). subst W. cbn [vmerge] in *. destruct (gt (fst t) (fst e)) eqn:G1; [|destruct (mono_eqb (fst t) (fst e)) eqn:G2].
      * destruct IHP as (D1 & D2 & D3).
        set (go := (fix go (P0 : poly) : list (mono * list C) := _)) in *.
        split; [|split].
        -- apply (desc_cons gt). split; [exact D1|]. apply Forall_forall. intros e' He'. cbn [fst].
           destruct (D2 e' He') as [(e0 & c & He0 & -> & _)|(t0 & Ht0 & -> & _)].
           ++ destruct He0 as [<-|He0]; [exact G1|]. rewrite Forall_forall in Ge, AV'.
              apply (gt_trans _ _ HO (fst t) (fst e) (fst e0) Ot Oe (AV' e0 He0) G1 (Ge e0 He0)).
           ++ rewrite Forall_forall in Gt. apply Gt, Ht0.
        -- intros e' [<-|He'].
           ++ right. exists t. split; [left; reflexivity|]. auto.
           ++ destruct (D2 e' He') as [X|(t0 & Ht0 & X)]; [left; exact X|right; exists t0; split; [right; exact Ht0|exact X]].
        -- intros t0 [<-|Ht0].
           ++ eexists. split; [left; reflexivity|]. cbn [fst snd]. eauto.
           ++ destruct (D3 t0 Ht0) as (e' & He' & X). exists e'. split; [right; exact He'|exact X].
      * apply mono_eqb_iff in G2. destruct (IH P AV' DV NP) as (D1 & D2 & D3). split; [|split].
        -- apply (desc_cons gt). split; [exact D1|]. apply Forall_forall. intros e' He'. cbn [fst].
           destruct (D2 e' He') as [(e0 & c & He0 & -> & _)|(t0 & Ht0 & -> & _)].
           ++ rewrite Forall_forall in Ge. apply Ge, He0.
           ++ rewrite Forall_forall in Gt. rewrite <- G2. apply Gt, Ht0.
        -- intros e' [<-|He'].
           ++ left. exists e, (snd t). split; [left; reflexivity|]. auto.
           ++ destruct (D2 e' He') as [(e0 & c & He0 & X)|(t0 & Ht0 & X)].
              ** left. exists e0, c. split; [right; exact He0|exact X].
              ** right. exists t0. split; [right; exact Ht0|exact X].
        -- intros t0 [<-|Ht0].
           ++ eexists. split; [left; reflexivity|]. cbn [fst snd]. split; [symmetry; exact G2|eauto].
           ++ destruct (D3 t0 Ht0) as (e' & He' & X). exists e'. split; [right; exact He'|exact X].
      * destruct (IH (t :: P) AV' DV NP0) as (D1 & D2 & D3).
        assert (G3 : gt (fst e) (fst t) = true).
        { destruct (gt_total _ _ HO (fst e) (fst t) Oe Ot) as [E|[E|E]]; [|exact E|change (gt (fst t) (fst e) = true) in E; congruence]. rewrite E, (proj2 (mono_eqb_iff _ _) eq_refl) in G2. discriminate. }
        split; [|split].
        -- apply (desc_cons gt). split; [exact D1|]. apply Forall_forall. intros e' He'. cbn [fst].
           destruct (D2 e' He') as [(e0 & c & He0 & -> & _)|(t0 & Ht0 & -> & _)].
           ++ rewrite Forall_forall in Ge. apply Ge, He0.
           ++ destruct Ht0 as [<-|Ht0]; [exact G3|]. rewrite Forall_forall in Gt. apply (gt_trans _ _ HO (fst e) (fst t) (fst t0) Oe Ot (proj1 (nin vo K P t0 NP Ht0)) G3 (Gt t0 Ht0)).
        -- intros e' [<-|He'].
           ++ left. exists e, 0c. split; [left; reflexivity|]. auto.
           ++ destruct (D2 e' He') as [(e0 & c & He0 & X)|X]; [|right; exact X]. left. exists e0, c. split; [right; exact He0|exact X].
        -- intros t0 Ht0. destruct (D3 t0 Ht0) as (e' & He' & X). exists e'. split; [right; exact He'|exact X].
Qed.
End Interp.

(** ** the loop over the evaluation points *)
Variable prime : Z.
Variable srt : poly -> poly.
Hypothesis Hsrt : sort_ok (mok vo) gt srt.
Variable rnd : path -> nat -> C.

Lemma draw_ok n f i used pt i' : draw K n f i used = Ok (pt, i') -> ~ In pt used.
Proof.
  revert i. induction n as [|n IH]; intros i E; cbn [draw] in E; [discriminate|].
  destruct (existsb _ used) eqn:X; [apply (IH _ E)|]. injection E as <- <-. intros I.
  assert (Y : existsb (ceqb K (f i)) used = true); [|congruence]. apply existsb_exists. exists (f i). split; [exact I|]. apply (ceqb_eq K HK). reflexivity.
Qed.

Section Loop.
Variables (x v : var) (F G Lc : poly).
Hypothesis Pre : mod_pre x F G Lc.
Hypothesis Hvx : v <> x.
Hypothesis Hocc : occ F v \/ occ G v.
Hypothesis Hlast : forall u, occ F u \/ occ G u -> u = v \/ vo u v = true.

Definition good_var (w : var) : Prop := (occ F w \/ occ G w) /\ w <> v.
Definition div_ok (d : Z) : Prop := forall D, D %| graw F -> D %| graw G -> deg_le K D x (Z.to_N d).
Definition table_ok (deg : Z) (V : list (mono * list C)) (pts : list C) : Prop :=
  NoDup pts /\ 0 <= deg /\ div_ok deg /\ desc gt V /\
  Forall (fun e => mok vo (fst e) /\ length (snd e) = length pts /\ zexp (fst e) x <= deg /\ forall w, zexp (fst e) w <> 0 -> good_var w) V /\
  Exists (fun e => zexp (fst e) x = deg /\ nth (length pts - 1) (snd e) 0c <> 0c) V.

Lemma good_above e : (forall w, zexp e w <> 0 -> good_var w) -> above v e.
Proof. intros H w Hw. destruct (H w Hw) as [O N]. destruct (Hlast w O) as [X|X]; [contradiction|exact X]. Qed.
Lemma occ_of (Pr : var -> Prop) (p : poly) w : vars_P Pr p -> occ p w -> Pr w.
Proof. intros H O. apply Exists_exists in O as (t & Ht & Hw). unfold vars_P in H. rewrite Forall_forall in H. apply (H t Ht w Hw). Qed.

Lemma table_res deg V pts : pts <> [] -> table_ok deg V pts -> mod_res x F G (interp K v pts V) deg.
Proof.
  intros Hp (ND & Hd & Dv & DV & AV & EV). rewrite Forall_forall in AV.
  assert (IN : forall t, In t (interp K v pts V) -> exists e j, In e V /\ t = (push v (fst e) j, interp_coef K pts (snd e) j)).
  { intros t Ht. apply in_flat_map in Ht as (e & He & Ht). apply interp_in in Ht as (j & _ & _ & ->). eauto. }
  split; [|split; [exact Hd|]].
  { apply interp_norm; [|exact DV]. apply Forall_forall. intros e He. destruct (AV e He) as (O & _ & _ & W). split; [exact O|apply good_above, W]. }
  split.
  { apply Forall_forall. intros t Ht. apply IN in Ht as (e & j & He & ->). destruct (AV e He) as (O & _ & L & W). cbn [fst].
    destruct (push_spec v (fst e) j O (good_above _ W)) as [_ X]. rewrite (X x). destruct (N.eqb_spec x v); [congruence|exact L]. }
  split.
  { apply Exists_exists in EV as (e & He & Ed & En). destruct (AV e He) as (O & Le & L & W).
    assert (exists a, nth_error pts (length pts - 1) = Some a) as [a Ea].
    { destruct (nth_error pts (length pts - 1)) as [a|] eqn:X; [eauto|]. apply nth_error_None in X. destruct pts; [congruence|cbn in X; lia]. }
    destruct (interp_nonzero K HF pts (snd e) _ a ND Ea En) as (j & Lj & Nj).
    apply Exists_exists. exists (push v (fst e) j, interp_coef K pts (snd e) j). split.
    - apply in_flat_map. exists e. split; [exact He|]. apply interp_in. exists j. auto.
    - cbn [fst]. destruct (push_spec v (fst e) j O (good_above _ W)) as [_ X]. rewrite (X x). destruct (N.eqb_spec x v); [congruence|exact Ed]. }
  split; [|exact Dv].
  intros Pr VF VG. apply Forall_forall. intros t Ht w Hw. apply IN in Ht as (e & j & He & ->). destruct (AV e He) as (O & _ & L & W). cbn [fst] in Hw.
  destruct (push_spec v (fst e) j O (good_above _ W)) as [_ X]. rewrite (X w) in Hw.
  destruct (N.eqb_spec w v) as [ew|n].
  - rewrite ew. destruct Hocc as [Y|Y]; [apply (occ_of Pr F v VF Y)|apply (occ_of Pr G v VG Y)].
  - destruct (W w Hw) as [[Y|Y] _]; [apply (occ_of Pr F w VF Y)|apply (occ_of Pr G w VG Y)].
Qed.

Lemma assign_ok (p : poly) c : norm p -> vars_P (fun w => occ F w \/ occ G w) p ->
  let q := p_assign K gt srt (assign1 v c) p in
  norm q /\ graw q == rsubst K (assign1 v c) (graw p) /\ vars_P good_var q.
Proof.
  intros N VP q.
  assert (Nq : norm q).
  { apply (assign_last_normal vo Hvo K HK (assign1 v c) (fun w => occ F w \/ occ G w)); [|exact N|exact VP].
    intros a b Ha Hb E1 E2. unfold assign1 in *. destruct (N.eqb_spec b v) as [->|]; [|congruence].
    destruct (N.eqb_spec a v) as [->|]; [discriminate|]. destruct (Hlast a Ha) as [X|X]; [contradiction|exact X]. }
  destruct (assign_spec vo Hvo S (or_introl eq_refl) K HK (assign1 v c) srt p N Hsrt) as (_ & _ & Eq0).
  assert (Eq : graw q == rsubst K (assign1 v c) (graw p)) by exact Eq0. clear Eq0.
  split; [exact Nq|]. split; [exact Eq|].
  (* variables: those of the substituted monomials *)
  assert (Fr : forall w, ~ good_var w -> vfree K w (graw q)).
  { intros w Nw m Hm. rewrite (Eq m) in Hm. unfold rsubst in Hm. apply (coef_supp K) in Hm as (m' & Im & Em).
    rewrite <- (Em w). apply in_map_iff in Im as ([m0 c0'] & <- & I0). cbn [fst]. apply in_flat_map in I0 as ([s cs] & Is & I0).
    cbn [map fst snd] in I0. destruct I0 as [[= <- _]|[]].
    unfold MonoStruct.graw in Is. apply in_map_iff in Is as (t & [= <- _] & Ht).
    destruct (nin vo K p t N Ht) as [Ot _].
    destruct (N.eq_dec w v) as [->|nv].
    - clear. induction (sm (fst t)) as [|[u e] l IH]; [reflexivity|]. cbn [msub filter fst]. unfold assign1 at 1.
      destruct (N.eqb_spec u v) as [->|n]; [exact IH|]. cbn [exp]. destruct (N.eqb_spec u v); [contradiction|]. exact IH.
    - rewrite exp_msub; [|unfold assign1; destruct (N.eqb_spec w v); [contradiction|reflexivity]].
      rewrite (exp_sm_mok vo _ w Ot). destruct (Z.eq_dec (zexp (fst t) w) 0) as [->|nz]; [reflexivity|]. exfalso. apply Nw. split; [|exact nv].
      unfold vars_P in VP. rewrite Forall_forall in VP. apply (VP t Ht w nz). }
  apply Forall_forall. intros t Ht w Hw.
  assert (Dec : {good_var w} + {~ good_var w}).
  { unfold good_var. destruct (occ_dec F w), (occ_dec G w), (N.eq_dec w v); tauto. }
  destruct Dec as [y|n]; [exact y|]. exfalso. apply Hw. specialize (Fr w n). apply (vfree_zexp vo Hvo K HD q w Nq) in Fr.
  rewrite Forall_forall in Fr. apply Fr, Ht.
Qed.

Lemma lc_vars : vars_P (fun w => occ F w \/ occ G w) Lc.
Proof.
  destruct Pre as (NF & NG & NL & Nx & EF & EG & [q HL]).
  destruct (first_spec vo Hvo K HD F x NF EF Nx) as (t & r & Ef & T & Dt & Pd & Lt & Dg).
  apply Forall_forall. intros u Hu w Hw. left. destruct (occ_dec F w) as [y|n]; [exact y|]. exfalso. apply Hw.
  assert (Fr : vfree K w (graw Lc)).
  { apply (free_div K HD HG w _ q (graw Lc) HL).
    - destruct Dg as [_ [Z|(m & Hm & Em)]]; [lia|]. intros Z. apply Hm. specialize (Z (mdrop x m)).
      rewrite (coef_rcoeff K HK), exp_mdrop, N.eqb_refl in Z. cbn [N.eqb Spec.coef r0] in Z. rewrite <- Z. apply (coef_proper K HK).
      intros w'. cbn [exp]. rewrite <- Em, !exp_mdrop. destruct (N.eqb_spec x w') as [e|e], (N.eqb_spec w' x) as [e'|e']; try congruence. { rewrite e'. lia. } reflexivity.
    - intros m Hm. rewrite (coef_rcoeff K HK) in Hm. destruct (N.eqb_spec (exp m x) 0) as [E0|]; [|congruence].
      apply (supp_in vo Hvo K HD F _ NF) in Hm as (t' & Ht' & Et').
      destruct (N.eq_dec w x) as [->|nx]; [exact E0|]. specialize (Et' w). cbn [exp] in Et'. rewrite exp_mdrop in Et'.
      destruct (N.eqb_spec x w); [congruence|]. destruct (N.eqb_spec w x); [congruence|]. rewrite N.add_0_l in Et'. rewrite Et'.
      destruct (Z.eq_dec (zexp (fst t') w) 0) as [->|nz]; [reflexivity|]. exfalso. apply n. apply Exists_exists. eauto. }
  apply (vfree_zexp vo Hvo K HD Lc w NL) in Fr. rewrite Forall_forall in Fr. apply Fr, Hu.
Qed.
Lemma occ_self_F : vars_P (fun w => occ F w \/ occ G w) F.
Proof. apply Forall_forall. intros t Ht w Hw. left. apply Exists_exists. eauto. Qed.
Lemma occ_self_G : vars_P (fun w => occ F w \/ occ G w) G.
Proof. apply Forall_forall. intros t Ht w Hw. right. apply Exists_exists. eauto. Qed.

Variable rec : path -> poly -> poly -> poly -> Z -> outcome (option (poly * Z)).
Hypothesis Hrec : forall pa F G Lc deg P d, mod_pre x F G Lc -> rec pa F G Lc deg = Ok (Some (P, d)) -> mod_res x F G P d.

Lemma image_ok pt pa deg P d :
  let F_v := p_assign K gt srt (assign1 v pt) F in
  let G_v := p_assign K gt srt (assign1 v pt) G in
  let lc_v := p_assign K gt srt (assign1 v pt) Lc in
  first_deg F_v = first_deg F -> first_var F_v = first_var F -> first_deg G_v = first_deg G -> first_var G_v = first_var G ->
  rec pa F_v G_v lc_v deg = Ok (Some (P, d)) ->
  norm P /\ 0 <= d /\ Forall (fun t => zexp (fst t) x <= d) P /\ Exists (fun t => zexp (fst t) x = d) P /\ vars_P good_var P /\ div_ok d.
Proof.
  intros F_v G_v lc_v D1 V1 D2 V2 E. pose proof Pre as (NF & NG & NL & Nx & EF & EG & HL).
  destruct (assign_ok F pt NF occ_self_F) as (NF' & RF & VF). destruct (assign_ok G pt NG occ_self_G) as (NG' & RG & VG).
  destruct (assign_ok Lc pt NL lc_vars) as (NL' & RL & VL). fold F_v in NF', RF, VF. fold G_v in NG', RG, VG. fold lc_v in NL', RL, VL.
  assert (Rx : assign1 v pt x = None) by (unfold assign1; destruct (N.eqb_spec x v); [congruence|reflexivity]).
  assert (Pre' : mod_pre x F_v G_v lc_v).
  { split; [exact NF'|]. split; [exact NG'|]. split; [exact NL'|]. split; [exact Nx|]. split; [congruence|]. split; [congruence|].
    rewrite D1. destruct HL as [q Hq]. exists (rsubst K (assign1 v pt) q).
    transitivity (rcoeff K x (Z.to_N (first_deg F)) (rsubst K (assign1 v pt) (graw F))); [apply (rcoeff_proper K HK x); exact RF|].
    rewrite (rsubst_rcoeff K HD _ x _ _ Rx), Hq, (rsubst_mul K HK), RL. reflexivity. }
  destruct (Hrec pa F_v G_v lc_v deg P d Pre' E) as (A1 & A2 & A3 & A4 & A5 & A6).
  split; [exact A1|]. split; [exact A2|]. split; [exact A3|]. split; [exact A4|]. split; [apply (A5 good_var VF VG)|].
  intros D DF DG.
  destruct (first_spec vo Hvo K HD F x NF EF Nx) as (t & r & Ef & _ & _ & Pd & _ & Dg).
  assert (EF' : first_var F_v = x) by congruence.
  destruct (first_spec vo Hvo K HD F_v x NF' EF' Nx) as (t' & r' & Ef' & _ & _ & Pd' & _ & Dg'). rewrite D1 in Dg'.
  assert (RFq : deg_is K (rsubst K (assign1 v pt) (graw F)) x (Z.to_N (first_deg F))).
  { destruct Dg' as [B1 B2]. split.
    - intros m Hm. apply B1. rewrite (RF m). exact Hm.
    - destruct B2 as [B2|(m & Hm & B2)]; [left; exact B2|right]. exists m. rewrite <- (RF m). auto. }
  apply (hom_deg K K HD HG HD HG (rsubst K (assign1 v pt))) with (x := x) (F := graw F) (e := Z.to_N (first_deg F)).
  - intros p q s Hs. rewrite Hs. apply (rsubst_mul K HK).
  - intros p n Hp. apply (rsubst_deg K HD); assumption.
  - apply (nz_iff vo Hvo K HD); [exact NF|rewrite Ef; discriminate].
  - rewrite <- RF. apply (nz_iff vo Hvo K HD); [exact NF'|rewrite Ef'; discriminate].
  - exact Dg.
  - exact RFq.
  - exact DF.
  - apply A6.
    + destruct DF as [q Hq]. exists (rsubst K (assign1 v pt) q). rewrite RF, Hq. apply (rsubst_mul K HK).
    + destruct DG as [q Hq]. exists (rsubst K (assign1 v pt) q). rewrite RG, Hq. apply (rsubst_mul K HK).
Qed.

Lemma pts_loop_ok pa v_d n : forall i ri used deg V pts P d,
  (pts = [] \/ table_ok deg V pts) -> incl pts used ->
  pts_loop K vo prime srt rnd n rec pa v v_d (first_deg F) (first_deg G) F G Lc i ri used deg V pts = Ok (Some (P, d)) ->
  mod_res x F G P d.
Proof.
  induction n as [|n IH]; intros i ri used deg V pts P d HT HU E; cbn [pts_loop] in E; [discriminate|].
  destruct (prime <=? i); [discriminate|].
  destruct (draw K n (rnd pa) ri used) as [[pt ri']| | |] eqn:Edr; try discriminate. cbn [obind] in E.
  pose proof (draw_ok _ _ _ _ _ _ Edr) as Npt.
  assert (Step : forall deg V pts, (pts = [] \/ table_ok deg V pts) -> incl pts (pt :: used) ->
     (if prime <=? wrap64 (i + v_d - Z.of_nat (length pts)) then Ok None
      else pts_loop K vo prime srt rnd n rec pa v v_d (first_deg F) (first_deg G) F G Lc (i + 1) ri' (pt :: used) deg V pts) = Ok (Some (P, d)) ->
     mod_res x F G P d).
  { intros deg' V' pts' HT' HU' E'. match type of E' with (if ?c then _ else _) = _ => destruct c end; [discriminate|]. apply (IH _ _ _ _ _ _ _ _ HT' HU' E'). }
  assert (HU1 : incl pts (pt :: used)) by (intros a Ha; right; apply HU, Ha).
  match type of E with (if ?c then _ else _) = _ => destruct c eqn:Ec end; [|apply (Step deg V pts HT HU1 E)].
  apply andb_true_iff in Ec as [Ec E4]. apply andb_true_iff in Ec as [Ec E3]. apply andb_true_iff in Ec as [E1 E2].
  apply Z.eqb_eq in E1, E3. apply N.eqb_eq in E2, E4.
  destruct (rec _ _ _ _ deg) as [[[Q d']|]| | |] eqn:Er; try discriminate; cbn [obind] in E; [|apply (Step deg V pts HT HU1 E)].
  destruct (image_ok pt _ deg Q d' E1 E2 E3 E4 Er) as (A1 & A2 & A3 & A4 & A5 & A6).
  destruct (Z.leb_spec d' deg) as [Ld|Ld]; [|apply (Step deg V pts HT HU1 E)].
  set (fresh := (d' <? deg) || (Z.of_nat (length pts) =? 0)) in *.
  set (deg' := if fresh then d' else deg) in *.
  set (V' := if fresh then map (fun t => (fst t, [snd t])) Q else vmerge K vo (Datatypes.S (length pts)) V Q) in *.
  set (pts' := if fresh then [pt] else pts ++ [pt]) in *.
  assert (HT' : pts' <> [] /\ table_ok deg' V' pts' /\ incl pts' (pt :: used)).
  { subst deg' V' pts'. destruct fresh eqn:Ef.
    - split; [discriminate|]. split; [|intros a [<-|[]]; left; reflexivity].
      split; [repeat constructor; intros []|]. split; [exact A2|]. split; [exact A6|]. split; [unfold desc; rewrite map_map; apply A1|]. split.
      + rewrite Forall_map. apply Forall_forall. intros t Ht. cbn [fst snd]. split; [apply (nin vo K Q t A1 Ht)|]. split; [reflexivity|].
        rewrite Forall_forall in A3. split; [apply A3, Ht|]. unfold vars_P in A5. rewrite Forall_forall in A5. apply (A5 t Ht).
      + apply Exists_exists in A4 as (t & Ht & Et). apply Exists_exists. exists (fst t, [snd t]). split; [apply in_map_iff; exists t; auto|].
        cbn [fst snd length Nat.sub nth]. split; [exact Et|apply (nin vo K Q t A1 Ht)].
    - apply orb_false_iff in Ef as [Ef1 Ef2]. apply Z.ltb_ge in Ef1. apply Z.eqb_neq in Ef2. assert (d' = deg) by lia. subst d'.
      destruct HT as [->|(ND & _ & _ & DV & AV & EV)]; [cbn in Ef2; lia|]. rewrite Forall_forall in AV.
      split; [intros Z; apply app_eq_nil in Z as [_ Z]; discriminate|]. split; [|intros a Ha; apply in_app_or in Ha as [Ha|[<-|[]]]; [apply HU1, Ha|left; reflexivity]].
      destruct (vmerge_spec (Datatypes.S (length pts)) V Q) as (W1 & W2 & W3).
      { apply Forall_forall. intros e He. apply (AV e He). } { exact DV. } { exact A1. }
      split; [|split; [exact A2|]; split; [exact A6|]; split; [exact W1|]; split].
      + apply (NoDup_Add (a := pt) (l := pts)). { rewrite <- (app_nil_r pts) at 1. apply Add_app. } split; [exact ND|]. intros I. apply Npt, HU, I.
      + apply Forall_forall. intros e' He'. rewrite app_length. cbn [length]. destruct (W2 e' He') as [(e & c & He & Ee & Es)|(t & Ht & Et & Es)]; rewrite ?Ee, ?Et, Es.
        * destruct (AV e He) as (B1 & B2 & B3 & B4). split; [exact B1|]. split; [rewrite app_length; cbn; lia|]. auto.
        * split; [apply (nin vo K Q t A1 Ht)|]. split; [rewrite app_length, repeat_length; cbn; lia|].
          rewrite Forall_forall in A3. split; [apply A3, Ht|]. unfold vars_P in A5. rewrite Forall_forall in A5. apply (A5 t Ht).
      + apply Exists_exists in A4 as (t & Ht & Et). destruct (W3 t Ht) as (e' & He' & Ee & l & El). apply Exists_exists. exists e'. split; [exact He'|].
        rewrite Ee. split; [exact Et|].
        assert (Ll : length (snd e') = length (pts ++ [pt])).
        { destruct (W2 e' He') as [(e & c & He & _ & Es)|(t0 & Ht0 & _ & Es)]; rewrite Es, !app_length; cbn [length]; [destruct (AV e He) as (_ & B2 & _); lia|rewrite repeat_length; lia]. }
        rewrite <- Ll, El, app_length. cbn [length]. rewrite app_nth2 by lia. replace (length l + 1 - 1 - length l)%nat with 0%nat by lia. cbn [nth].
        apply (nin vo K Q t A1 Ht). }
  destruct HT' as (Hn & HT' & HU').
  destruct (Z.of_nat (length pts') =? v_d).
  - injection E as <- <-. apply table_res; assumption.
  - apply (Step deg' V' pts' (or_intror HT') HU' E).
Qed.
End Loop.

Theorem mod_gcd_ok fuel : forall x pa F G Lc deg P d, mod_pre x F G Lc ->
  mod_gcd K vo rcomp prime srt rnd fuel pa F G Lc deg = Ok (Some (P, d)) -> mod_res x F G P d.
Proof.
  induction fuel as [|f IH]; intros x pa F G Lc deg P d Pre E; cbn [mod_gcd] in E; [discriminate|].
  pose proof Pre as (NF & NG & NL & Nx & EF & EG & HL).
  destruct F as [|tf F']; [discriminate|]. destruct G as [|tg G']; [discriminate|]. destruct Lc as [|tl Lc']; [discriminate|].
  set (F := tf :: F') in *. set (G := tg :: G') in *. set (Lc := tl :: Lc') in *. rewrite EF, EG in E.
  rewrite N.eqb_refl in E. cbn [negb] in E. destruct (N.eqb_spec x 0); [contradiction|].
  destruct (last_spec F x NF EF Nx) as [OF LF]. destruct (last_spec G x NG EG Nx) as [OG LG].
  destruct (last_var_deg vo F) as [fv fd]. destruct (last_var_deg vo G) as [gv gd]. cbn [fst] in *.
  assert (Only : forall (p : poly) w, norm p -> topp vo x p -> (forall u, occ p u -> u = w \/ vo u w = true) -> x = w -> only x p).
  { intros p w Np Tp Lp <-. apply Forall_forall. intros t Ht u Hu.
    destruct (topp_occ vo Hvo K p x t u Np Tp Ht Hu) as [->|X]; [reflexivity|].
    destruct (Lp u) as [->|Y]; [apply Exists_exists; eauto|reflexivity|].
    pose proof (vo_trans vo Hvo _ _ _ X Y) as Z. rewrite (vo_irrefl vo Hvo) in Z. discriminate. }
  destruct (first_spec vo Hvo K HD F x NF EF Nx) as (_ & _ & _ & TF & _). destruct (first_spec vo Hvo K HD G x NG EG Nx) as (_ & _ & _ & TG & _).
  destruct (N.eqb x fv && N.eqb x gv) eqn:Eb.
  - apply andb_true_iff in Eb as [E1 E2]. apply N.eqb_eq in E1, E2.
    apply (mod_base_ok x f F G Lc deg P d Pre); [apply (Only F fv)|apply (Only G gv)|exact E]; assumption.
  - assert (TopF : forall u, occ F u -> u = x \/ vo x u = true).
    { intros u Hu. apply Exists_exists in Hu as (t & Ht & Hu). apply (topp_occ vo Hvo K F x t u NF TF Ht Hu). }
    assert (TopG : forall u, occ G u -> u = x \/ vo x u = true).
    { intros u Hu. apply Exists_exists in Hu as (t & Ht & Hu). apply (topp_occ vo Hvo K G x t u NG TG Ht Hu). }
    destruct (N.eqb_spec fv gv) as [<-|ne].
    + assert (Nv : fv <> x). { intros ->. rewrite N.eqb_refl in Eb. discriminate. }
      apply (pts_loop_ok x fv F G Lc Pre Nv (or_introl OF)) in E; [exact E| |intros; eapply IH; eauto|left; reflexivity|intros a []].
      intros u [Hu|Hu]; [apply LF, Hu|apply LG, Hu].
    + destruct (vo fv gv) eqn:Vg.
      * assert (Nv : gv <> x).
        { intros ->. destruct (TopF fv OF) as [->|X]; [congruence|]. pose proof (vo_trans vo Hvo _ _ _ X Vg) as Z. rewrite (vo_irrefl vo Hvo) in Z. discriminate. }
        apply (pts_loop_ok x gv F G Lc Pre Nv (or_intror OG)) in E; [exact E| |intros; eapply IH; eauto|left; reflexivity|intros a []].
        intros u [Hu|Hu]; [|apply LG, Hu]. right. destruct (LF u Hu) as [->|X]; [exact Vg|apply (vo_trans vo Hvo u fv gv); assumption].
      * assert (Vf : vo gv fv = true) by (destruct (vo_total vo Hvo fv gv) as [X|[X|X]]; [contradiction|congruence|exact X]).
        assert (Nv : fv <> x).
        { intros ->. destruct (TopG gv OG) as [->|X]; [congruence|]. pose proof (vo_trans vo Hvo _ _ _ X Vf) as Z. rewrite (vo_irrefl vo Hvo) in Z. discriminate. }
        apply (pts_loop_ok x fv F G Lc Pre Nv (or_introl OF)) in E; [exact E| |intros; eapply IH; eauto|left; reflexivity|intros a []].
        intros u [Hu|Hu]; [apply LF, Hu|]. right. destruct (LG u Hu) as [->|X]; [exact Vf|apply (vo_trans vo Hvo u gv fv); assumption].
Qed.
End Zp.
