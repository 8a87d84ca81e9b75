(** * factorize for polynomials in one variable (Factor.v). *)
From Coq Require Import Ring_theory Ring Setoid Morphisms Znumtheory Sorting.Sorted Permutation.
From Verif Require Import Prelude Coef Spec SpecProofs SpecOps SpecOpsProofs GcdDom GcdPoly GcdMath SqfMath OrderSpec PairVec PairVecProofs
  Mono MonoProofs MonoStruct MonoStructProofs Heap Poly PolyMulProofs Div PolyDivProofs PolyOps MonoOpsProofs PolyOpsGen PolyOpsProofs
  PolyOps2Proofs ConvertProofs PolyOps3Proofs Groebner Zp NumSpec ZpProofs Gcd GcdHom GcdLex GcdZpProofs GcdCont GcdRep GcdTerm GcdProofs GcdMain Sqf SqfProofs
  UGcd UGcdBase UGcdProofs Factor FactorBase FactorUni FactorSqf FactorRen.
Local Open Scope Z_scope.

Local Notation K := Zc.
Local Instance HK : ring_ok K := domain_ring K Zc_domain.
Local Notation HD := Zc_domain.
Local Notation HG := Z_cgcd.
Add Ring Rring : (rring K HK) (setoid (req_equiv K) (rring_ext K HK)).
Local Notation unorm := (normal uok (m_gt uniS) K).
Local Notation uraw := (MonoStruct.graw usm).
Local Notation mraw := (MonoStruct.graw sm).
Local Notation ufine := (fine uniS uok).
Local Notation "a == b" := (req K a b) (at level 70).
Local Notation "a %| b" := (rdivides K a b) (at level 70).

(** what is assumed of the sorts by degree and of the lifted factors *)
Record fac_env (usort : list upz -> list upz) (fsort : list (upz * nat) -> list (upz * nat)) (o : foracle) : Prop := {
  fe_usort : forall l, Permutation l (usort l);
  fe_fsort : forall l, Permutation l (fsort l);
  fe_lift : forall f ph, Forall (fun h => unorm h) (fst (o_lift o f ph));
}.

Section One.
Context (vo : vorder) (Hvo : vorder_ok vo).
Notation poly := (poly Z).
Notation norm := (normal (mok vo) (lex_gt vo) K).
Variable msrt : list (var * Z) -> list (var * Z).
Variable srt : forall C : Type, Mono.poly C -> Mono.poly C.
Variable mcomp qcomp : poly -> poly -> outcome (option poly).
Variable rcomp : poly -> poly -> outcome (option (poly * poly)).
Variable zcomp : forall p (Hp : modulus p), Mono.poly (zpc p) -> Mono.poly (zpc p) -> outcome (option (Mono.poly (zpc p) * Mono.poly (zpc p))).
Variable ps : nat -> pmod.
Variable rnd : path -> nat -> Z.
Hypothesis Env : gcd_env vo msrt srt mcomp qcomp rcomp zcomp ps.
Variable usrt : upz -> upz.
Variable usort : list upz -> list upz.
Variable fsort : list (upz * nat) -> list (upz * nat).
Variable o : foracle.
Hypothesis Fenv : fac_env usort fsort o.
Notation sqf := (squarefreefactorize vo msrt srt mcomp qcomp rcomp zcomp ps rnd).
Notation cont := (poly_cont vo msrt srt mcomp qcomp rcomp zcomp ps rnd).
Notation factor_uni := (factor_uni vo msrt srt mcomp qcomp rcomp zcomp ps rnd usrt usort fsort o).
Notation factor_one := (factor_one vo msrt srt mcomp qcomp rcomp zcomp ps rnd usrt usort fsort o).

Definition ofv (v : var) (t : upz * nat) : poly * nat := (of_upoly v (fst t), snd t).
Definition uent (v : var) (t : upz * nat) : Prop := ufine (fst t) /\ (1 <= snd t)%nat /\
  ((exists k, fst t = [(0, k)] /\ (snd t = 1%nat \/ k = 1 \/ k = -1)) \/ (is_number (of_upoly v (fst t)) = false /\ is_prim K 0%N (uraw (fst t)))).
Definition fent (t : upz * nat) : Prop := ufine (fst t) /\ (1 <= snd t)%nat.

Lemma pow_const k n : rpow K (rconst k) n == rconst (k ^ Z.of_nat n).
Proof.
  induction n as [|n IH]; [reflexivity|]. cbn [rpow]. rewrite IH, (rconst_mul K). cbn [cmul Zc]. rewrite Nat2Z.inj_succ, Z.pow_succ_r by lia. reflexivity.
Qed.
Lemma const_pm k n : (n = 1%nat \/ k = 1 \/ k = -1) -> pm (rconst k) (rpow K (rconst k) n).
Proof.
  intros H. destruct H as [-> |H]; [apply pm_req; cbn [rpow]; ring|].
  assert (U : k ^ Z.of_nat n = 1 \/ k ^ Z.of_nat n = -1).
  { clear -H. induction n as [|n IH]; [left; reflexivity|]. rewrite Nat2Z.inj_succ, Z.pow_succ_r by lia.
    destruct H as [-> | ->], IH as [-> | ->]; [left|right|right|left]; reflexivity. }
  rewrite pow_const. assert (O : rconst (-1) = ropp K (rconst 1)) by reflexivity.
  assert (O' : rconst 1 == ropp K (rconst (-1))) by reflexivity.
  destruct H as [-> | ->], U as [-> | ->]; [left|right|right|left]; reflexivity.
Qed.
Lemma uni_factors_ok v fuel (lu : list (upz * nat)) : Forall (uent v) lu -> forall ct (fs : list (upz * nat)) ct' fs',
  uni_factors usrt usort o fuel (map (ofv v) lu) ct fs = Ok (ct', fs') ->
  exists add, fs' = fs ++ add /\ Forall fent add /\ pm (rmul K (rconst ct') (mprod usm add)) (rmul K (rconst ct) (mprod usm lu)).
Proof.
  intros Fl. induction Fl as [|[u e] lu (Hu & Le & Hk) Fl IH]; intros ct fs ct' fs' E; cbn [map uni_factors ofv fst snd] in E.
  { injection E as <- <-. exists []. split; [symmetry; apply app_nil_r|]. split; [constructor|]. apply pm_refl. }
  cbn [fst snd] in *. destruct (is_number (of_upoly v u)) eqn:En.
  - destruct (of_number v u (proj1 Hu) (proj2 Hu) En) as [k ->]. cbn [of_upoly map fst snd] in E.
    apply IH in E as (add & -> & Fa & Pa). exists add. split; [reflexivity|]. split; [exact Fa|]. eapply pm_trans; [exact Pa|].
    cbn [mprod fold_right fst snd]. fold (mprod usm lu).
    assert (Hk' : e = 1%nat \/ k = 1 \/ k = -1) by (destruct Hk as [(k' & E' & H)|[H _]]; [injection E' as <-; exact H|discriminate]).
    assert (X : rmul K (rconst (ct * k)) (mprod usm lu) == rmul K (rmul K (rconst ct) (mprod usm lu)) (rconst k)).
    { change (ct * k) with (cmul K ct k). rewrite <- (rconst_mul K). ring. }
    assert (Y : rmul K (rconst ct) (rmul K (rpow K (uraw [(0, k)]) e) (mprod usm lu)) == rmul K (rmul K (rconst ct) (mprod usm lu)) (rpow K (rconst k) e)).
    { rewrite const_graw. ring. }
    rewrite X, Y. apply pm_mul; [apply pm_refl|]. apply const_pm, Hk'.
  - rewrite (to_of_upoly K HK v usrt u (proj1 Hu)) in E. assert (Pu : is_prim K 0%N (uraw u)).
    { destruct Hk as [(k' & E' & _)|[_ H]]; [subst u; discriminate|exact H]. }
    destruct (udeg u <=? 1).
    + apply IH in E as (add & -> & Fa & Pa). exists ((u, e) :: add). split; [rewrite <- app_assoc; reflexivity|].
      split; [constructor; [split; assumption|exact Fa]|]. cbn [mprod fold_right fst snd]. fold (mprod usm add) (mprod usm lu).
      assert (X : rmul K (rconst ct') (rmul K (rpow K (uraw u) e) (mprod usm add)) == rmul K (rpow K (uraw u) e) (rmul K (rconst ct') (mprod usm add))) by ring.
      assert (Y : rmul K (rconst ct) (rmul K (rpow K (uraw u) e) (mprod usm lu)) == rmul K (rpow K (uraw u) e) (rmul K (rconst ct) (mprod usm lu))) by ring.
      rewrite X, Y. apply pm_mul; [apply pm_refl|exact Pa].
    + destruct (factor_sp usort o fuel u) as [irr| | |] eqn:Es; cbn [obind] in E; try discriminate.
      destruct (factor_sp_ok usort (fe_usort _ _ _ Fenv) o (fe_lift _ _ _ Fenv) fuel u irr Hu Pu Es) as [Fi Pi].
      apply IH in E as (add & -> & Fa & Pa). exists (map (fun p => (flip p, e)) irr ++ add). split; [rewrite <- app_assoc; reflexivity|].
      split. { apply Forall_app. split; [|exact Fa]. rewrite Forall_map. eapply Forall_impl; [|exact Fi]. intros p Hp. split; [apply (flip_fine uniS uok usm), Hp|exact Le]. }
      cbn [mprod fold_right fst snd]. fold (mprod usm lu). rewrite mprod_app.
      assert (X : rmul K (rconst ct') (rmul K (mprod usm (map (fun p => (flip p, e)) irr)) (mprod usm add)) ==
        rmul K (rpow K (lprod usm (map flip irr)) e) (rmul K (rconst ct') (mprod usm add))).
      { rewrite <- (mprod_same usm (map flip irr) e), map_map. ring. }
      assert (Y : rmul K (rconst ct) (rmul K (rpow K (uraw u) e) (mprod usm lu)) == rmul K (rpow K (uraw u) e) (rmul K (rconst ct) (mprod usm lu))) by ring.
      rewrite X, Y. apply pm_mul; [|exact Pa]. apply pm_pow. eapply pm_trans; [|exact Pi]. apply (lprod_flip uniS uok usm), Fi.
Qed.
(** a squarefree polynomial with positive leading coefficient *)
Lemma uni_factors_exact v fuel (u : upz) ct fs : ufine u -> is_prim K 0%N (uraw u) -> 0 < lcp u -> is_number (of_upoly v u) = false ->
  uni_factors usrt usort o fuel [([(mono1, 1)], 1%nat); (of_upoly v u, 1%nat)] ct [] = Ok fs ->
  rmul K (rconst (fst fs)) (mprod usm (snd fs)) == rmul K (rconst ct) (uraw u).
Proof.
  intros Hu Pu Lu En E. cbn [uni_factors] in E. change (is_number [(mono1, 1)]) with true in E. rewrite En in E. cbn iota in E. cbn [snd] in E. rewrite Z.mul_1_r in E.
  rewrite (to_of_upoly K HK v usrt u (proj1 Hu)) in E. destruct (udeg u <=? 1).
  - injection E as <-. cbn [fst snd mprod fold_right app rpow]. ring.
  - destruct (factor_sp usort o fuel u) as [irr| | |] eqn:Es; cbn [obind] in E; try discriminate. injection E as <-.
    destruct (factor_sp_ok usort (fe_usort _ _ _ Fenv) o (fe_lift _ _ _ Fenv) fuel u irr Hu Pu Es) as [Fi Pi]. cbn [fst snd app].
    rewrite <- (map_map flip (fun p => (p, 1%nat))), mprod_same. cbn [rpow].
    rewrite (lprod_exact uniS uok usm uniS_ok irr u Fi Hu Pi), (flip_pos uniS uok usm u (proj1 Hu) Lu). ring.
Qed.
Lemma uprim_pos t1 t2 r c p : ufine (t1 :: t2 :: r) -> uprim (t1 :: t2 :: r) = (c, p) -> 0 < lcp p.
Proof.
  intros H E. destruct (uprim_fine _ c p H E) as (Nc & Hp & _). pose proof (lcp_nz uniS uok p (proj1 Hp) (proj2 Hp)) as Nz. unfold uprim in E.
  assert (U : 0 <= ucont (t1 :: t2 :: r)).
  { cbn [ucont]. destruct (exists_last (l := t2 :: r)) as (r' & u & Er); [discriminate|]. rewrite Er, fold_left_app. cbn [fold_left]. apply Z.gcd_nonneg. }
  set (g := ucont (t1 :: t2 :: r)) in *. clearbody g. injection E as Ec Ep.
  rewrite <- Ep in Nz |- *. cbn [map lcp snd] in Nz |- *. set (a := snd t1) in *. clearbody a. clear Ep Hp H. rewrite Ec in Nz |- *.
  destruct (Z.ltb_spec a 0) as [L|L].
  - assert (Q : Z.quot a c = Z.quot (- a) g) by (rewrite <- Ec; rewrite <- (Z.quot_opp_opp (- a) g) by lia; rewrite Z.opp_involutive; reflexivity).
    rewrite Q in Nz |- *. pose proof (Z.quot_pos (- a) g). lia.
  - pose proof (Z.quot_pos a c). lia.
Qed.
Lemma cont_one v (u : upz) t1 t2 r f pa c : v <> 0%N -> ufine u -> u = t1 :: t2 :: r -> is_prim K 0%N (uraw u) -> is_number (of_upoly v u) = false ->
  cont f pa (of_upoly v u) = Ok c -> c = [(mono1, 1)].
Proof.
  intros Nv Hu Eu Pu En E. pose proof (of_good vo Hvo v u Nv (proj1 Hu)) as G. assert (Ne : of_upoly v u <> []) by (rewrite of_nil; apply Hu).
  destruct (poly_cont_ok vo Hvo _ _ _ _ _ _ _ _ Env _ _ _ c G E) as (Gc & _ & Ic). specialize (Ic Ne). rewrite (of_first v u (proj1 Hu) (proj2 Hu) En) in Ic.
  pose proof (of_prim vo Hvo v u (proj1 Hu) (proj2 Hu) Pu) as Pv.
  assert (U : unit K (mraw c)) by (apply Pv; apply Ic). apply unit_spec in U as (k & Ek & Hk).
  assert (Ec : c = [(mono1, k)]).
  { apply (gnormal_req (lexS vo) (mok vo) sm K (lexS_ok vo Hvo) HK); [apply Gc| |exact Ek]. repeat constructor. cbn. destruct Hk; lia. }
  assert (N2 : unorm (t1 :: t2 :: r)) by (rewrite <- Eu; apply Hu). rewrite Eu in E.
  destruct (ucont_pos vo msrt srt mcomp qcomp rcomp zcomp ps rnd v t1 t2 r f pa c Nv N2 E) as (m & k' & E' & Pk). rewrite Ec in E' |- *.
  injection E' as _ <-. destruct Hk as [-> | ->]; [reflexivity|lia].
Qed.
Lemma mprod_ren v lu : Forall (fun t => unorm (fst t)) lu -> rren v 0%N (rprod (graws (map (ofv v) lu))) == mprod usm lu.
Proof.
  induction 1 as [|[u e] lu Hu _ IH]; cbn [map graws rprod fold_right mprod fst snd ofv]; [apply rren_1|].
  fold (mprod usm lu). rewrite rren_mul, rren_pow. cbn [fst] in Hu. rewrite (ren_back vo v u Hu), <- IH. reflexivity.
Qed.
Lemma single_not_sqf (e c : Z) : 2 <= e -> c <> 0 -> ~ sqf_nc (uraw [(e, c)]).
Proof.
  intros L Nc H. destruct (H (uraw [(1, 1)])) as [k Ek].
  - exists (uraw [(e - 2, c)]). cbn. apply (req_single K); [|lia]. intros w. cbn [app exp usm]. unfold usm. cbn [exp app]. destruct (N.eqb 0 w); lia.
  - specialize (Ek (usm 1)). cbn in Ek. discriminate.
Qed.
Definition exactly (ct : Z) (fs : list (upz * nat)) (F : upz) : Prop := rmul K (rconst ct) (mprod usm fs) == uraw F.
Lemma core_ok fuel pa v (F : upz) ct fs : v <> 0%N -> ufine F ->
  (let '(ct, up) := uprim F in
   if udeg up <=? 1 then Ok (ct, [(up, 1%nat)])
   else (l <- sqf fuel pa (of_upoly v up) ;; '(ct', fs) <- uni_factors usrt usort o fuel l ct [] ;; Ok (ct', fsort fs))) = Ok (ct, fs) ->
  Forall fent fs /\ pm (rmul K (rconst ct) (mprod usm fs)) (uraw F) /\ (sqf_nc (uraw F) -> exactly ct fs F).
Proof.
  intros Nv HF E. destruct (uprim_ok F HF) as (c & up & Eu & Nc & Hup & EF & Pup & Dup & Mup). rewrite Eu in E.
  destruct (Z.leb_spec (udeg up) 1) as [L|L].
  { injection E as <- <-. assert (X : rmul K (rconst c) (mprod usm [(up, 1%nat)]) == uraw F) by (rewrite EF; cbn [mprod fold_right fst snd rpow]; ring).
    split; [constructor; [split; [exact Hup|apply Nat.le_refl]|constructor]|]. split; [apply pm_req, X|intros _; exact X]. }
  destruct (sqf fuel pa (of_upoly v up)) as [r| | |] eqn:Es; cbn [obind] in E; try discriminate.
  destruct (uni_factors usrt usort o fuel r c []) as [[ct' fs']| | |] eqn:Ef; cbn [obind] in E; try discriminate. injection E as <- <-.
  pose proof (of_good vo Hvo v up Nv (proj1 Hup)) as Gup. assert (Nup : of_upoly v up <> []) by (rewrite of_nil; apply Hup).
  pose proof (proj1 (nz_iff vo Hvo K HD _ (proj1 Gup)) Nup) as Nz.
  assert (En : is_number (of_upoly v up) = false).
  { destruct (is_number (of_upoly v up)) eqn:X; [|reflexivity]. destruct (of_number v up (proj1 Hup) (proj2 Hup) X) as [k ->]. cbn in L. lia. }
  assert (Perm : mprod usm (fsort fs') == mprod usm fs') by (symmetry; apply mprod_perm, (fe_fsort _ _ _ Fenv)).
  assert (Main : Forall fent fs' /\ pm (rmul K (rconst ct') (mprod usm fs')) (rmul K (rconst c) (uraw up))).
  { destruct (sqf_prim vo Hvo _ _ _ _ _ _ _ rnd Env fuel pa _ r Gup Nup Es) as (k & l & Er & Nk & Fl & Pr).
    set (lu := ([(0, k)], 1%nat) :: map (fun t => (to_upoly K usrt (fst t), snd t)) l : list (upz * nat)).
    assert (Only : Forall (fun t => of_upoly v (to_upoly K usrt (fst t)) = fst t /\ unorm (to_upoly K usrt (fst t))) l).
    { rewrite Forall_forall in Fl |- *. intros t Ht. destruct (Fl t Ht) as (Gt & _ & Lt & _). apply (only_v vo Hvo v usrt (fst t) (proj1 Gt)).
      apply (dvd_vars vo Hvo K HD HG (fst t) (of_upoly v up)); auto; [apply Gt|apply Gup| |apply (of_vars vo v up (proj1 Hup))|apply N.eq_dec].
      destruct (rprod_in (graws r) (mraw (fst t), snd t)) as [q Eq]; [apply graws_in; rewrite Er; right; exact Ht|exact Lt|]. exists q. rewrite <- Pr. exact Eq. }
    assert (Erl : r = map (ofv v) lu).
    { assert (Tl : map (ofv v) (map (fun t => (to_upoly K usrt (fst t), snd t)) l) = l).
      { rewrite map_map. rewrite <- (map_id l) at 2. apply map_ext_in. intros t Ht.
        rewrite Forall_forall in Only. destruct (Only t Ht) as [Ot _]. unfold ofv. cbn [fst snd]. rewrite Ot. destruct t; reflexivity. }
      rewrite Er. unfold lu. cbn [map]. rewrite Tl. reflexivity. }
    assert (Fu : Forall (fun t : upz * nat => unorm (fst t)) lu).
    { constructor; [apply const_norm, Nk|]. rewrite Forall_map. eapply Forall_impl; [|exact Only]. intros t [_ H]. exact H. }
    assert (FU : Forall (uent v) lu).
    { constructor; [split; [split; [apply const_norm, Nk|discriminate]|]; split; [apply Nat.le_refl|]; left; exists k; auto|].
      rewrite Forall_map. rewrite Forall_forall in Fl, Only |- *. intros t Ht. destruct (Only t Ht) as [Ot Nt]. destruct (Fl t Ht) as (Gt & Net & Lt & _ & H1 & H2).
      assert (Net' : to_upoly K usrt (fst t) <> []) by (intros X; apply Net; rewrite <- Ot, X; reflexivity).
      split; [split; assumption|]. split; [exact Lt|]. cbn [fst snd]. rewrite Ot. destruct (is_number (fst t)) eqn:Ent.
      - left. destruct (of_number v (to_upoly K usrt (fst t)) Nt Net') as [k' Ek']; [rewrite Ot; exact Ent|]. exists k'. split; [exact Ek'|]. right.
        apply unit_const. destruct (H1 eq_refl) as [q Eq]. exists q. rewrite Eq. rewrite <- Ot, Ek'. apply (rmul_proper K HK); [reflexivity|].
        cbn. apply (req_single K); reflexivity.
      - right. split; [reflexivity|]. apply (prim_of vo v _ Nt Net'). rewrite Ot.
        assert (Fv : first_var (fst t) = v). { rewrite <- Ot. apply of_first; auto. rewrite Ot. exact Ent. }
        rewrite <- Fv. apply H2. reflexivity. }
    assert (Pl : mprod usm lu == uraw up).
    { rewrite <- (mprod_ren v lu Fu), <- Erl, Pr. apply (ren_back vo v up), Hup. }
    rewrite Erl in Ef. destruct (uni_factors_ok v fuel lu FU c [] ct' fs' Ef) as (add & Ea & Fa & Pa). cbn [app] in Ea. subst add.
    split; [exact Fa|]. rewrite <- Pl. exact Pa. }
  destruct Main as [Ffs Pfs]. split; [apply (Permutation_Forall (fe_fsort _ _ _ Fenv fs') Ffs)|].
  assert (EF' : uraw F == rmul K (rconst c) (uraw up)) by (rewrite EF; ring).
  split; [rewrite Perm, EF'; exact Pfs|]. intros Sq. unfold exactly. rewrite Perm, EF'.
  assert (Squ : sqf_nc (uraw up)) by (apply (sqf_nc_dvd (uraw F)); [exact Sq|]; exists (rconst c); exact EF').
  destruct F as [|t1 [|t2 rF]]; [destruct HF; congruence| |].
  { exfalso. destruct t1 as [e a]. cbn [udeg fst] in Dup. apply (single_not_sqf e a); [lia| |exact Sq]. apply (unin K _ (e, a) (proj1 HF)). left; reflexivity. }
  pose proof (uprim_pos t1 t2 rF c up HF Eu) as Lup.
  destruct up as [|u1 [|u2 ru]]; try discriminate. set (up := u1 :: u2 :: ru) in *.
  rewrite (sqf_one vo Hvo _ _ _ _ _ _ _ rnd Env fuel pa (of_upoly v up) r) in Ef; auto.
  - apply (uni_factors_exact v fuel up c (ct', fs') Hup Pup Lup En Ef).
  - rewrite (of_first v up (proj1 Hup) (proj2 Hup) En). apply (of_prim vo Hvo v up (proj1 Hup) (proj2 Hup) Pup).
  - apply (of_sqf vo Hvo v up (proj1 Hup) (proj2 Hup) Squ).
  - intros f c1 Ec1. apply (cont_one v up u1 u2 ru f (0%nat :: pa) c1 Nv Hup eq_refl Pup En Ec1).
Qed.
Theorem factor_uni_ok fuel pa v (F : upz) ct fs : v <> 0%N -> unorm F -> factor_uni fuel pa v F = Ok (ct, fs) ->
  Forall fent fs /\ pm (rmul K (rconst ct) (mprod usm fs)) (uraw F) /\ (sqf_nc (uraw F) -> exactly ct fs F).
Proof.
  intros Nv N E.
  assert (Cst : forall k, (k, []) = (ct, fs) -> uraw F == rconst k -> Forall fent fs /\ pm (rmul K (rconst ct) (mprod usm fs)) (uraw F) /\ (sqf_nc (uraw F) -> exactly ct fs F)).
  { intros k [= <- <-] X. assert (Y : rmul K (rconst k) (mprod usm []) == uraw F) by (rewrite X; cbn [mprod fold_right]; ring).
    split; [constructor|]. split; [apply pm_req, Y|intros _; exact Y]. }
  destruct F as [|[e c] r]; [apply (Cst 0); [injection E as <- <-; reflexivity|symmetry; apply (rconst_0 K HD)]|].
  assert (HF : ufine ((e, c) :: r)) by (split; [exact N|discriminate]).
  destruct e as [|e|e]; [destruct r as [|t r]|..]; [apply (Cst c); [injection E as <- <-; reflexivity|apply const_graw]|..];
    apply (core_ok fuel pa v _ ct fs Nv HF); exact E.
Qed.
End One.
