(** * factorize for polynomials in several variables: recombination and the main theorem (Factor.v). *)
From Coq Require Import Ring_theory Ring Setoid Morphisms Znumtheory Sorting.Sorted Permutation.
From Verif Require Import Prelude Coef Spec SpecProofs SpecOps SpecOpsProofs GcdDom GcdPoly GcdMath SqfMath OrderSpec PairVec PairVecProofs
  Mono MonoProofs MonoStruct MonoStructProofs Heap Poly PolyMulProofs Div PolyDivProofs PolyOps MonoOpsProofs PolyOpsGen PolyOpsProofs
  PolyOps2Proofs ConvertProofs PolyOps3Proofs Groebner Zp NumSpec ZpProofs Gcd GcdHom GcdLex GcdZpProofs GcdCont GcdRep GcdTerm GcdProofs GcdMain Sqf SqfProofs
  UGcd UGcdBase UGcdProofs Factor FactorBase FactorUni FactorSqf FactorRen FactorOne FactorMulti.
Local Open Scope Z_scope.

Local Notation K := Zc.
Local Instance HK : ring_ok K := domain_ring K Zc_domain.
Local Notation HD := Zc_domain.
Local Notation HG := Z_cgcd.
Add Ring Rring : (rring K HK) (setoid (req_equiv K) (rring_ext K HK)).
Local Notation unorm := (normal uok (m_gt uniS) K).
Local Notation uraw := (MonoStruct.graw usm).
Local Notation mraw := (MonoStruct.graw sm).
Local Notation "a == b" := (req K a b) (at level 70).
Local Notation "a %| b" := (rdivides K a b) (at level 70).

(** what is assumed of the lifted factors and of the last sort *)
Record wang_env (vo : vorder) (msortf : list (poly Z * nat) -> list (poly Z * nat)) (w_try : poly Z -> var -> nat -> attempt) : Prop := {
  we_sort : forall l, Permutation l (msortf l);
  we_lift : forall g x k l, w_try g x k = Lifted l -> Forall (good vo) l;
}.

Section Wang.
Context (vo : vorder) (Hvo : vorder_ok vo).
Notation poly := (poly Z).
Notation norm := (normal (mok vo) (lex_gt vo) K).
Notation good := (good vo).
Variable msrt : list (var * Z) -> list (var * Z).
Variable srt : forall C : Type, Mono.poly C -> Mono.poly C.
Variable mcomp qcomp : poly -> poly -> outcome (option poly).
Variable rcomp : poly -> poly -> outcome (option (poly * poly)).
Variable zcomp : forall p (Hp : modulus p), Mono.poly (zpc p) -> Mono.poly (zpc p) -> outcome (option (Mono.poly (zpc p) * Mono.poly (zpc p))).
Variable ps : nat -> pmod.
Variable rnd : path -> nat -> Z.
Hypothesis Env : gcd_env vo msrt srt mcomp qcomp rcomp zcomp ps.
Variable usrt : upz -> upz.
Variable usort : list upz -> list upz.
Variable fsort : list (upz * nat) -> list (upz * nat).
Variable msortf : list (poly * nat) -> list (poly * nat).
Variable o : foracle.
Variable w_try : poly -> var -> nat -> attempt.
Hypothesis Fenv : fac_env usort fsort o.
Hypothesis Wenv : wang_env vo msortf w_try.
Notation sqf := (squarefreefactorize vo msrt srt mcomp qcomp rcomp zcomp ps rnd).
Notation factor_uni := (factor_uni vo msrt srt mcomp qcomp rcomp zcomp ps rnd usrt usort fsort o).
Notation factor_one := (factor_one vo msrt srt mcomp qcomp rcomp zcomp ps rnd usrt usort fsort o).
Notation wnormalize := (wnormalize vo msrt srt mcomp qcomp rcomp zcomp ps rnd).

Definition ment (t : poly * nat) : Prop := good (fst t) /\ fst t <> [] /\ (1 <= snd t)%nat.
Lemma mprod_of v (fs : list (upz * nat)) : Forall (fun t => unorm (fst t)) fs ->
  mprod sm (map (fun t => (of_upoly v (fst t), snd t)) fs) == rren 0%N v (mprod usm fs).
Proof.
  induction 1 as [|[u e] fs Hu _ IH]; cbn [map mprod fold_right fst snd]; [symmetry; apply rren_1|].
  fold (mprod sm (map (fun t : upz * nat => (of_upoly v (fst t), snd t)) fs)) (mprod usm fs).
  rewrite rren_mul, rren_pow, <- IH, <- (of_ren vo v u Hu). reflexivity.
Qed.
Theorem factor_one_ok fuel pa (F : poly) ct fs : good F -> (length (get_variables vo F) <= 1)%nat -> factor_one fuel pa F = Ok (ct, fs) ->
  Forall ment fs /\ pm (rmul K (rconst ct) (mprod sm fs)) (mraw F) /\ (sqf_nc (mraw F) -> rmul K (rconst ct) (mprod sm fs) == mraw F).
Proof.
  intros G L E. unfold Factor.factor_one in E. destruct F as [|t r].
  { injection E as <- <-. split; [constructor|]. assert (X : rmul K (rconst 0) (mprod sm []) == mraw []) by (rewrite (rconst_0 K HD); cbn [mprod fold_right]; change (mraw []) with (@r0 Z); ring).
    split; [apply pm_req, X|intros _; exact X]. }
  set (F := t :: r) in *. destruct (is_number F) eqn:En.
  { injection E as <- <-. destruct (number_spec vo Hvo F G En) as (c & Ec & Ef); [discriminate|].
    assert (X : rmul K (rconst (snd t)) (mprod sm []) == mraw F).
    { rewrite Ec. unfold F in Ef. injection Ef as -> _. cbn [snd mprod fold_right]. ring. }
    split; [constructor|]. split; [apply pm_req, X|intros _; exact X]. }
  destruct (one_var vo Hvo F G En L) as (v & d & Ev & Vv & Nv). rewrite Ev in E.
  destruct (factor_uni fuel pa v (to_upoly K usrt F)) as [[ct' fs']| | |] eqn:Ef; cbn [obind] in E; try discriminate. injection E as <- <-.
  destruct (only_v vo Hvo v usrt F (proj1 G) Vv) as [Eo Nu].
  destruct (factor_uni_ok vo Hvo _ _ _ _ _ _ _ rnd Env usrt usort fsort o Fenv fuel pa v _ ct' fs' Nv Nu Ef) as (Ff & P & X).
  assert (Nf : Forall (fun t : upz * nat => unorm (fst t)) fs') by (eapply Forall_impl; [|exact Ff]; intros u Hu; apply Hu).
  assert (Em : rmul K (rconst ct') (mprod sm (map (fun t => (of_upoly v (fst t), snd t)) fs')) == rren 0%N v (rmul K (rconst ct') (mprod usm fs'))).
  { rewrite (mprod_of v fs' Nf), rren_mul, rren_const. reflexivity. }
  assert (EF : mraw F == rren 0%N v (uraw (to_upoly K usrt F))) by (rewrite <- (of_ren vo v _ Nu), Eo; reflexivity).
  split; [|split].
  - rewrite Forall_map. eapply Forall_impl; [|exact Ff]. intros u [[N1 N2] N3]. split; [apply (of_good vo Hvo v _ Nv N1)|]. cbn [fst snd]. split; [rewrite of_nil; exact N2|exact N3].
  - rewrite Em, EF. apply rren_pm, P.
  - intros Sq. rewrite Em, EF. apply rren_proper, X. apply (sqf_of vo v); [exact Nu| |rewrite Eo; exact Sq].
    intros Z0. rewrite Z0 in Eo. discriminate.
Qed.

(** ** normalizing a candidate *)
Lemma good_iff (p : poly) : norm p -> (good p <-> vfree K 0%N (mraw p)).
Proof.
  intros N. rewrite (vfree_zexp vo Hvo K HD p 0%N N). unfold good, nz0, vars_P. rewrite !Forall_forall. split.
  - intros [_ G] t Ht. destruct (Z.eq_dec (zexp (fst t) 0%N) 0) as [E|E]; [exact E|]. exfalso. exact (G t Ht _ E eq_refl).
  - intros H. split; [exact N|]. intros t Ht v Hv ->. apply Hv, H, Ht.
Qed.
Lemma good_dvd (d p : poly) : norm d -> good p -> p <> [] -> mraw d %| mraw p -> good d.
Proof.
  intros N G Ne D. split; [exact N|]. apply (dvd_vars vo Hvo K HD HG d p); auto; [apply G|apply G|]. intros w. destruct (N.eq_dec w 0); [right|left]; congruence.
Qed.
Definition wfine (p : poly) : Prop := good p /\ p <> [] /\ 0 < lcp p.
Lemma flip_good (p : poly) : good p -> p <> [] -> wfine (flip p) /\ pm (mraw (flip p)) (mraw p).
Proof.
  intros G Ne. destruct (flip_fine (lexS vo) (mok vo) sm p) as [[N' Ne'] L]; [split; [apply G|exact Ne]|].
  pose proof (flip_pm (lexS vo) (mok vo) sm p (proj1 G)) as P. split; [|exact P]. split; [|split; assumption].
  apply (good_iff _ N'). pose proof (proj1 (good_iff p (proj1 G)) G) as V. intros m Hm. destruct P as [P|P]; rewrite (P m) in Hm; [apply V, Hm|].
  apply (vfree_opp K HD 0%N _ V), Hm.
Qed.
Lemma wnorm_good fuel pa (h q : poly) : good h -> wnormalize fuel pa h = Ok q -> (h = [] -> q = []) /\ (h <> [] -> wfine q).
Proof.
  intros G E. unfold Factor.wnormalize in E. destruct (poly_pp _ _ _ _ _ _ _ _ _ _ _ h) as [p| | |] eqn:Ep; cbn [obind] in E; try discriminate. injection E as <-.
  destruct (poly_pp_ok vo Hvo _ _ _ _ _ _ _ rnd Env _ _ h p G Ep) as (Np & H0 & H1). split; [intros ->; rewrite H0; reflexivity|]. intros Ne.
  destruct (H1 Ne) as (c & Gc & Ic & Eh & _). assert (Dp : mraw p %| mraw h) by (exists (mraw c); rewrite Eh; ring).
  apply flip_good; [apply (good_dvd p h Np G Ne Dp)|]. apply (nz_iff vo Hvo K HD p Np), (rd_nz K HD _ _ Dp), (nz_iff vo Hvo K HD h (proj1 G)), Ne.
Qed.

Section Core.
Variable g0 : poly.
Hypothesis G0 : wfine g0.
Let x := first_var g0.
Hypothesis Hx : x <> 0%N.
Hypothesis P0 : is_prim K x (mraw g0).
(** for a divisor of a primitive polynomial only the sign can change *)
Lemma wnorm_dvd fuel pa (h q : poly) : good h -> h <> [] -> mraw h %| mraw g0 -> wnormalize fuel pa h = Ok q -> pm (mraw q) (mraw h).
Proof.
  intros G Ne Dh E. unfold Factor.wnormalize in E. destruct (poly_pp _ _ _ _ _ _ _ _ _ _ _ h) as [p| | |] eqn:Ep; cbn [obind] in E; try discriminate. injection E as <-.
  destruct (poly_pp_ok vo Hvo _ _ _ _ _ _ _ rnd Env _ _ h p G Ep) as (Np & _ & H1). destruct (H1 Ne) as (c & Gc & Ic & Eh & _).
  assert (Dp : mraw p %| mraw h) by (exists (mraw c); rewrite Eh; ring).
  assert (Dc : mraw c %| mraw h) by (exists (mraw p); exact Eh).
  assert (Nep : p <> []) by (apply (nz_iff vo Hvo K HD p Np), (rd_nz K HD _ _ Dp), (nz_iff vo Hvo K HD h (proj1 G)), Ne).
  assert (Uc : unit K (mraw c)).
  { destruct (is_number h) eqn:En.
    - apply (rd_trans K HD _ (mraw h)); [exact Dc|]. apply (number_unit vo Hvo g0 h x G Ne P0 Dh En).
    - pose proof (div_first vo Hvo g0 h x (proj1 G0) (proj1 (proj2 G0)) G eq_refl Hx P0 Dh En) as Fh. rewrite Fh in Ic.
      apply P0; [apply Ic|]. apply (rd_trans K HD _ (mraw h)); assumption. }
  eapply pm_trans; [apply flip_good; [apply (good_dvd p h Np G Ne Dp)|exact Nep]|]. rewrite Eh. apply unit_spec in Uc as (k & Ek & Hk). apply pm_unit.
  rewrite Ek. destruct Hk as [-> | ->]; [left|right]; reflexivity.
Qed.

Lemma dvd_pm (a b c : rpoly Z) : pm a b -> b %| c -> a %| c.
Proof. intros [E|E] [q Eq]; [exists q; rewrite Eq, E; reflexivity|exists (ropp K q); rewrite Eq, E; ring]. Qed.
Lemma good_mul (a b r : poly) : good a -> good b -> norm r -> mraw r == rmul K (mraw a) (mraw b) -> good r.
Proof.
  intros Ga Gb N E. apply (good_iff r N). pose proof (vfree_mul K HD 0%N _ _ (proj1 (good_iff a (proj1 Ga)) Ga) (proj1 (good_iff b (proj1 Gb)) Gb)) as V.
  intros m Hm. rewrite (E m) in Hm. apply V, Hm.
Qed.
Lemma pick_good {A} (P : A -> Prop) (T : list A) : Forall P T -> forall idx sel, pick T idx = Ok sel -> Forall P sel.
Proof.
  intros F. induction idx as [|i idx IH]; intros sel E; cbn [pick] in E; [injection E as <-; constructor|].
  destruct (nth_error T i) as [a|] eqn:Ei; [|discriminate]. destruct (pick T idx) as [l| | |]; cbn [obind] in E; try discriminate. injection E as <-.
  constructor; [|apply IH; reflexivity]. apply nth_error_In in Ei. rewrite Forall_forall in F. apply F, Ei.
Qed.
Lemma erase_good {A} (P : A -> Prop) idx (T : list A) : Forall P T -> Forall P (erase idx T).
Proof.
  unfold erase. generalize 0%nat. intros k F. revert k. induction F as [|a T Ha F IH]; intros k; cbn [erase_from]; [constructor|].
  destruct (existsb (Nat.eqb k) idx); [apply IH|constructor; [exact Ha|apply IH]].
Qed.
Lemma wprod_good (l : list poly) : forall p q, good p -> Forall good l -> wprod vo mcomp p l = Ok q -> good q.
Proof.
  induction l as [|h l IH]; intros p q G F E; cbn [wprod] in E; [injection E as <-; exact G|].
  destruct (pmul vo mcomp p h) as [r| | |] eqn:Em; cbn [obind] in E; try discriminate.
  destruct (pmul_spec vo Hvo _ _ _ _ _ _ _ Env p h r (proj1 G) (proj1 (Forall_inv F)) Em) as [Nr Er].
  apply (IH r q); [apply (good_mul p h r G (Forall_inv F) Nr Er)|apply (Forall_inv_tail F)|exact E].
Qed.
Notation wscan := (wscan vo msrt srt mcomp qcomp rcomp zcomp ps rnd).
Notation wloop := (wloop vo msrt srt mcomp qcomp rcomp zcomp ps rnd).
Notation wnormed := (wnormed vo msrt srt mcomp qcomp rcomp zcomp ps rnd).
Notation wrecombine := (wrecombine vo msrt srt mcomp qcomp rcomp zcomp ps rnd).
Lemma wnormed_good fuel pa l : forall T, Forall good l -> wnormed fuel pa l = Ok T -> Forall good T.
Proof.
  induction l as [|h l IH]; intros T F E; cbn [Factor.wnormed] in E; [injection E as <-; constructor|].
  destruct (wnormalize fuel _ h) as [h'| | |] eqn:Eh; cbn [obind] in E; try discriminate.
  destruct (wnormed fuel pa l) as [r'| | |] eqn:El; cbn [obind] in E; try discriminate. injection E as <-.
  specialize (IH r' (Forall_inv_tail F) eq_refl). destruct (plain h') eqn:Ep; [|exact IH]. constructor; [|exact IH].
  destruct (wnorm_good fuel _ h h' (Forall_inv F) Eh) as [A B]. destruct h as [|t h]; [rewrite (A eq_refl) in Ep; discriminate|].
  apply B. discriminate.
Qed.
Lemma wscan_ok n : forall pa (g : poly) T idx p q idx', wfine g -> mraw g %| mraw g0 -> Forall good T -> wscan n pa g T idx = Ok (Some (p, q, idx')) ->
  wfine p /\ wfine q /\ pm (rmul K (mraw p) (mraw q)) (mraw g).
Proof.
  induction n as [|n IH]; intros pa g T idx p q idx' Wg Dg FT E; [discriminate|]. cbn [Factor.wscan] in E.
  destruct (pick T idx) as [sel| | |] eqn:Es; cbn [obind] in E; try discriminate. pose proof (pick_good good T FT idx sel Es) as Fs.
  destruct sel as [|h r]; [discriminate|]. destruct (wprod vo mcomp h r) as [prod| | |] eqn:Ep; cbn [obind] in E; try discriminate.
  pose proof (wprod_good r h prod (Forall_inv Fs) (Forall_inv_tail Fs) Ep) as Gp.
  destruct (wnormalize n _ prod) as [prod'| | |] eqn:En; cbn [obind] in E; try discriminate.
  destruct (wnorm_good n _ prod prod' Gp En) as [A B].
  assert (Next : forall E' : match next_comb (length T) idx with Some idx' => wscan n pa g T idx' | None => Ok None end = Ok (Some (p, q, idx')),
    wfine p /\ wfine q /\ pm (rmul K (mraw p) (mraw q)) (mraw g)).
  { intros E'. destruct (next_comb (length T) idx) as [i2|]; [|discriminate]. apply (IH pa g T i2 p q idx' Wg Dg FT E'). }
  destruct (plain prod') eqn:Epl; cbn [obind] in E; [|apply Next, E].
  destruct (pdivrem vo rcomp n g prod') as [[Q R]| | |] eqn:Ed; cbn [obind] in E; try discriminate.
  destruct R as [|]; [|cbn [obind] in E; apply Next, E]. destruct Q as [|q0 Q]; [cbn [obind] in E; apply Next, E|].
  set (Q' := q0 :: Q) in *. assert (NQ : Q' <> []) by discriminate. clearbody Q'. clear Q q0.
  assert (Wp : wfine prod'). { apply B. intros ->. rewrite (A eq_refl) in Epl. discriminate. }
  destruct (pdivrem_spec vo Hvo _ _ _ _ _ _ _ Env n g prod' Q' (proj1 (proj1 Wg)) (proj1 (proj1 Wp)) (proj1 (proj2 Wp)) Ed) as [NormQ EQ].
  assert (DQ : mraw Q' %| mraw g) by (exists (mraw prod'); rewrite EQ; ring).
  pose proof (good_dvd Q' g NormQ (proj1 Wg) (proj1 (proj2 Wg)) DQ) as GQ.
  destruct (wnormalize n _ Q') as [q'| | |] eqn:Eq; cbn [obind] in E; try discriminate. injection E as <- <- <-.
  split; [exact Wp|]. destruct (wnorm_good n _ Q' q' GQ Eq) as [_ Bq]. split; [apply Bq, NQ|].
  rewrite EQ. assert (X : rmul K (mraw prod') (mraw q') == rmul K (mraw q') (mraw prod')) by ring. rewrite X. apply pm_mul; [|apply pm_refl].
  eapply wnorm_dvd; [exact GQ|exact NQ| |exact Eq]. apply (rd_trans K HD _ (mraw g)); assumption.
Qed.
Definition vent (t : poly * nat) : Prop := wfine (fst t) /\ snd t = 1%nat.
Lemma mprod_1 (p : poly) : mprod sm [(p, 1%nat)] == mraw p.
Proof. cbn [mprod fold_right fst snd rpow]. ring. Qed.
Lemma wloop_ok n : forall pa s T (g : poly) ver ver' g' T', wfine g -> Forall good T -> Forall vent ver ->
  pm (rmul K (mprod sm ver) (mraw g)) (mraw g0) -> wloop n pa s T g ver = Ok (ver', g', T') ->
  wfine g' /\ Forall vent ver' /\ pm (rmul K (mprod sm ver') (mraw g')) (mraw g0).
Proof.
  induction n as [|n IH]; intros pa s T g ver ver' g' T' Wg FT Fv P E; [discriminate|]. cbn [Factor.wloop] in E.
  destruct (Nat.leb (2 * s) (length T)); [|injection E as <- <- <-; auto].
  destruct (wscan n _ g T (seq 0 s)) as [[[[p q] idx]|]| | |] eqn:Es; cbn [obind] in E; try discriminate.
  - assert (Dg : mraw g %| mraw g0). { apply (rd_trans K HD _ (rmul K (mprod sm ver) (mraw g))); [exists (mprod sm ver); reflexivity|]. apply (dvd_pm _ _ _ P). apply (rd_refl K HD). }
    destruct (wscan_ok n _ g T _ p q idx Wg Dg FT Es) as (Wp & Wq & Pq).
    apply (IH pa 1%nat (erase idx T) q (ver ++ [(p, 1%nat)]) ver' g' T' Wq (erase_good good idx T FT)) in E; [exact E| |].
    + apply Forall_app. split; [exact Fv|]. constructor; [split; [exact Wp|reflexivity]|constructor].
    + rewrite mprod_app, mprod_1. eapply pm_trans; [|exact P].
      assert (X : rmul K (rmul K (mprod sm ver) (mraw p)) (mraw q) == rmul K (mprod sm ver) (rmul K (mraw p) (mraw q))) by ring. rewrite X.
      apply pm_mul; [apply pm_refl|exact Pq].
  - apply (IH pa (S s) T g ver ver' g' T' Wg FT Fv P E).
Qed.
Lemma wrecombine_ok fuel pa l ver : Forall good l -> wrecombine fuel pa g0 l = Ok (Some ver) -> Forall vent ver /\ pm (mprod sm ver) (mraw g0).
Proof.
  intros Fl E. unfold Factor.wrecombine in E. destruct (wnormed fuel _ l) as [T| | |] eqn:Et; cbn [obind] in E; try discriminate.
  pose proof (wnormed_good fuel _ l T Fl Et) as FT.
  destruct (wloop fuel _ 1 T g0 []) as [[[ver0 g'] T']| | |] eqn:El; cbn [obind] in E; try discriminate.
  destruct (wloop_ok fuel (1%nat :: pa) 1%nat T g0 [] ver0 g' T' G0 FT (Forall_nil _)) as (Wg & Fv & P); [cbn [mprod fold_right]; apply pm_req; ring|exact El|].
  assert (Dg : mraw g' %| mraw g0). { apply (rd_trans K HD _ (rmul K (mprod sm ver0) (mraw g'))); [exists (mprod sm ver0); reflexivity|]. apply (dvd_pm _ _ _ P). apply (rd_refl K HD). }
  destruct (Nat.leb (length T') 1); [|discriminate]. destruct Wg as (Gg & Neg & Lg).
  assert (Res : forall v2, Forall vent v2 /\ pm (mprod sm v2) (mraw g0) -> (if Nat.leb 2 (length v2) then Some v2 else None) = Some ver -> Forall vent ver /\ pm (mprod sm ver) (mraw g0)).
  { intros v2 H E2. destruct (Nat.leb 2 (length v2)); [injection E2 as <-; exact H|discriminate]. }
  destruct (plain g') eqn:Ep; cbn [obind] in E.
  - destruct (wnormalize fuel _ g') as [h| | |] eqn:Eh; cbn [obind] in E; try discriminate. injection E as E.
    destruct (wnorm_good fuel _ g' h Gg Eh) as [_ Wh]. specialize (Wh Neg). pose proof (wnorm_dvd fuel _ g' h Gg Neg Dg Eh) as Ph.
    destruct (is_number h) eqn:En.
    + exfalso. destruct Wh as (Gh & Neh & Lh). destruct (number_spec vo Hvo h Gh En Neh) as (c & Ec & _).
      assert (X : exists c', mraw g' == rconst c').
      { destruct (pm_sym _ _ Ph) as [X|X]; [exists c|exists (- c)]; rewrite X, Ec; reflexivity. }
      destruct X as [c' Ec']. pose proof (number_of_const vo Hvo g' c' (proj1 Gg) Ec') as X. unfold plain in Ep. rewrite X in Ep. destruct g'; discriminate.
    + apply (Res _) in E; [exact E|]. split; [apply Forall_app; split; [exact Fv|]; constructor; [split; [exact Wh|reflexivity]|constructor]|].
      rewrite mprod_app, mprod_1. eapply pm_trans; [|exact P]. apply pm_mul; [apply pm_refl|exact Ph].
  - injection E as E. apply (Res _) in E; [exact E|]. split; [exact Fv|]. assert (En : is_number g' = true).
    { unfold plain in Ep. destruct g' as [|t g']; [congruence|]. destruct (is_number (t :: g')); [reflexivity|discriminate]. }
    pose proof (number_unit vo Hvo g0 g' x Gg Neg P0 Dg En) as U. apply unit_spec in U as (k & Ek & Hk).
    eapply pm_trans; [|exact P]. rewrite Ek. apply pm_unit. destruct Hk as [-> | ->]; [left|right]; reflexivity.
Qed.
Notation wbatch := (wbatch vo msrt srt mcomp qcomp rcomp zcomp ps rnd w_try).
Notation wround := (wround vo msrt srt mcomp qcomp rcomp zcomp ps rnd w_try).
Notation wcore_loop := (wcore_loop vo msrt srt mcomp qcomp rcomp zcomp ps rnd w_try).
Notation wang_core := (wang_core vo msrt srt mcomp qcomp rcomp zcomp ps rnd w_try).
Definition wres (l : list (poly * nat)) : Prop := Forall vent l /\ pm (mprod sm l) (mraw g0).
Lemma wbatch_ok fuel : forall cnt pa y skip l, wbatch fuel cnt pa g0 y skip = Ok (BDone l) -> wres l.
Proof.
  induction cnt as [|c IH]; intros pa y skip l E; cbn [Factor.wbatch] in E; [discriminate|].
  destruct (w_try g0 y skip) as [| |li] eqn:Et; [discriminate|apply (IH _ _ _ _ E)|].
  destruct li as [|h r]; [apply (IH _ _ _ _ E)|]. pose proof (we_lift _ _ _ Wenv _ _ _ _ Et) as Fl.
  destruct (wrecombine fuel (c :: pa) g0 (h :: r)) as [[ver|]| | |] eqn:Er; cbn [obind] in E; try discriminate; [|apply (IH _ _ _ _ E)].
  injection E as <-. apply (wrecombine_ok fuel _ _ _ Fl Er).
Qed.
Lemma wround_ok fuel pa : forall st l, wround fuel pa g0 st = Ok (inl l) -> wres l.
Proof.
  induction st as [|[[y skip] dead] r IH]; intros l E; cbn [Factor.wround] in E; [discriminate|].
  assert (Next : forall d b, (t <- wround fuel pa g0 r ;; Ok (match t with inl l => inl l | inr r' => inr ((y, d, b) :: r') end)) = Ok (inl l) -> wres l).
  { intros d b E'. destruct (wround fuel pa g0 r) as [[l'|r']| | |] eqn:Er; cbn [obind] in E'; try discriminate. injection E' as <-. apply IH. reflexivity. }
  destruct dead.
  - cbn [obind] in E. apply (Next _ _ E).
  - destruct (wbatch fuel 200 (length r :: pa) g0 y skip) as [[l'| |]| | |] eqn:Eb; cbn [obind] in E; try discriminate; [|apply (Next _ _ E)..].
    injection E as <-. apply (wbatch_ok _ _ _ _ _ _ Eb).
Qed.
Lemma self_res : wres [(g0, 1%nat)].
Proof. split; [constructor; [split; [exact G0|reflexivity]|constructor]|]. rewrite mprod_1. apply pm_refl. Qed.
Lemma wcore_loop_ok n : forall pa st l, wcore_loop n pa g0 st = Ok l -> wres l.
Proof.
  induction n as [|n IH]; intros pa st l E; cbn [Factor.wcore_loop] in E; [discriminate|].
  destruct (wround n (n :: pa) g0 st) as [[l'|st']| | |] eqn:Er; cbn [obind] in E; try discriminate; [injection E as <-; apply (wround_ok _ _ _ _ Er)|].
  destruct (forallb snd st'); [injection E as <-; apply self_res|apply (IH _ _ _ E)].
Qed.
Lemma mprod_pos (l : list (poly * nat)) : Forall vent l -> exists r, wfine r /\ mraw r == mprod sm l.
Proof.
  induction 1 as [|[p e] l [Wp Ee] _ (r & Wr & Er)].
  - exists [(mono1, 1)]. split; [|reflexivity]. split; [|split; [discriminate|cbn; lia]]. split; [repeat constructor; discriminate|]. constructor; [|constructor]. intros w Hw. cbn in Hw. congruence.
  - cbn [fst snd] in *. subst e. destruct (prod_fine (lexS vo) (mok vo) sm (lexS_ok vo Hvo) p r) as (q & [Nq Hq] & Eq & Lq); [split; apply Wp|split; apply Wr|].
    exists q. split; [|rewrite Eq, Er; cbn [mprod fold_right fst snd rpow]; fold (mprod sm l); ring].
    split; [apply (good_mul p r q (proj1 Wp) (proj1 Wr) Nq Eq)|]. split; [exact Hq|]. rewrite Lq. apply Z.mul_pos_pos; [apply Wp|apply Wr].
Qed.
Theorem wang_core_ok fuel pa l : wang_core fuel pa g0 = Ok l -> Forall vent l /\ mprod sm l == mraw g0.
Proof.
  intros E. assert (R : wres l).
  { unfold Factor.wang_core in E. destruct (filter _ (get_variables vo g0)) as [|j js]; [injection E as <-; apply self_res|apply (wcore_loop_ok _ _ _ _ E)]. }
  destruct R as [F P]. split; [exact F|]. destruct (mprod_pos l F) as (r & Wr & Er). rewrite <- Er in P |- *.
  rewrite (pm_pos (lexS vo) (mok vo) sm (lexS_ok vo Hvo) r g0); [reflexivity|..]; try apply Wr; try apply G0. exact P.
Qed.
End Core.

(** ** putting everything together *)
Lemma pow_opp (p : rpoly Z) n : rpow K (ropp K p) n == if Nat.odd n then ropp K (rpow K p n) else rpow K p n.
Proof.
  induction n as [|n IH]; [reflexivity|]. rewrite Nat.odd_succ, <- Nat.negb_odd. cbn [rpow]. rewrite IH. destruct (Nat.odd n); cbn [negb]; ring.
Qed.
Lemma scale_prod (l : list (poly * nat)) k : mprod sm (scale_mult k l) == rpow K (mprod sm l) k.
Proof.
  induction l as [|[p e] l IH]; cbn [scale_mult map mprod fold_right fst snd].
  - induction k as [|k IHk]; cbn [rpow]; [reflexivity|]. rewrite <- IHk. ring.
  - fold (scale_mult k l). fold (mprod sm (scale_mult k l)) (mprod sm l). rewrite IH, rpow_mul_. apply (rmul_proper K HK); [|reflexivity].
    clear. induction k as [|k IH]; [rewrite Nat.mul_0_r; reflexivity|]. rewrite Nat.mul_succ_r. cbn [rpow]. rewrite <- IH. clear. generalize (e * k)%nat. intros n.
    rewrite Nat.add_comm. induction e as [|e IH]; cbn [rpow Nat.add]; [ring|]. rewrite IH. ring.
Qed.
Lemma scale_ment (l : list (poly * nat)) k : (1 <= k)%nat -> Forall ment l -> Forall ment (scale_mult k l).
Proof.
  intros L F. unfold scale_mult. rewrite Forall_map. eapply Forall_impl; [|exact F]. intros [p e] (A & B & C). cbn [fst snd] in *. split; [exact A|]. split; [exact B|]. cbn [snd].
  apply (Nat.mul_le_mono 1 e 1 k); assumption.
Qed.
Definition mentry (t : poly * nat) : Prop := good (fst t) /\ fst t <> [] /\ (1 <= snd t)%nat /\
  (is_number (fst t) = false -> sqf_nc (mraw (fst t)) /\ is_prim K (first_var (fst t)) (mraw (fst t))).
Notation multi_factors := (multi_factors vo msrt srt mcomp qcomp rcomp zcomp ps rnd usrt usort fsort o w_try).
Notation factor_multivar := (factor_multivar vo msrt srt mcomp qcomp rcomp zcomp ps rnd usrt usort fsort msortf o w_try).
Notation factorize := (factorize vo msrt srt mcomp qcomp rcomp zcomp ps rnd usrt usort fsort msortf o w_try).
Lemma number_vars (p : poly) : is_number p = true -> get_variables vo p = [].
Proof.
  intros E. destruct p as [|t [|u r]]; [reflexivity| |discriminate]. cbn in E. unfold mempty in E. cbn. destruct (md (fst t)); [reflexivity|discriminate].
Qed.
Lemma multi_factors_ok fuel pa l : Forall mentry l -> forall ct fs ct' fs', multi_factors fuel pa l ct fs = Ok (ct', fs') ->
  exists add, fs' = fs ++ add /\ Forall ment add /\ rmul K (rconst ct') (mprod sm add) == rmul K (rconst ct) (mprod sm l).
Proof.
  induction 1 as [|[g mk] l (Gg & Neg & Lk & Hg) Fl IH]; intros ct fs ct' fs' E; cbn [Factor.multi_factors] in E.
  { injection E as <- <-. exists []. split; [symmetry; apply app_nil_r|]. split; [constructor|reflexivity]. }
  cbn [fst snd] in *.
  assert (Powc : forall a b k, rconst (a * b ^ Z.of_nat k) == rmul K (rconst a) (rpow K (rconst b) k)).
  { intros a b k. rewrite (pow_const rnd). symmetry. apply (rconst_mul K). }
  set (one := fun ct fs gr => '(c, sub) <- factor_one fuel (length l :: 0%nat :: pa) gr ;; multi_factors fuel pa l (ct * c ^ Z.of_nat mk) (fs ++ scale_mult mk sub)) in E.
  assert (One : forall fs0 gr, good gr -> (length (get_variables vo gr) <= 1)%nat -> sqf_nc (mraw gr) -> one ct fs0 gr = Ok (ct', fs') ->
    exists add, fs' = fs0 ++ add /\ Forall ment add /\ rmul K (rconst ct') (mprod sm add) == rmul K (rconst ct) (rmul K (rpow K (mraw gr) mk) (mprod sm l))).
  { intros fs0 gr Gr Lv Sq E1. unfold one in E1. destruct (factor_one fuel _ gr) as [[c sub]| | |] eqn:E2; cbn [obind] in E1; try discriminate.
    destruct (factor_one_ok fuel _ gr c sub Gr Lv E2) as (Fs & _ & X). specialize (X Sq). apply IH in E1 as (add & -> & Fa & Pa).
    exists (scale_mult mk sub ++ add). split; [rewrite <- app_assoc; reflexivity|]. split; [apply Forall_app; split; [apply scale_ment; assumption|exact Fa]|].
    rewrite mprod_app, scale_prod. rewrite <- X, rpow_mul_.
    transitivity (rmul K (rpow K (mprod sm sub) mk) (rmul K (rconst ct') (mprod sm add))); [ring|]. rewrite Pa, Powc. ring. }
  cbn [mprod fold_right fst snd]. fold (mprod sm l). destruct (is_number g) eqn:En.
  { destruct (number_spec vo Hvo g Gg En Neg) as (c & Ec & Eg). rewrite Eg in E. cbn [snd] in E. apply IH in E as (add & -> & Fa & Pa).
    exists add. split; [reflexivity|]. split; [exact Fa|]. rewrite Pa, Powc, Ec. ring. }
  destruct (Hg eq_refl) as [Sq Pr]. destruct (Nat.leb_spec (length (get_variables vo g)) 1) as [Lv|Lv]; [apply (One fs g Gg Lv Sq E)|].
  destruct (extract_mono vo srt g) as [gr ms] eqn:Ex. destruct (extract_mono_ok vo Hvo srt g gr ms Gg Neg Ex) as (Gr & Ner & Fm & Em).
  set (vs := map (fun j : var * Z => ([(mono_var (fst j), 1)], (Z.to_nat (snd j) * mk)%nat)) ms) in *.
  assert (Evs : mprod sm vs == rpow K (mprod sm (map (fun j : var * Z => ([(mono_var (fst j), 1)], Z.to_nat (snd j))) ms)) mk).
  { rewrite <- scale_prod. unfold scale_mult. rewrite map_map. reflexivity. }
  assert (Fvs : Forall ment vs).
  { unfold vs. rewrite Forall_map. eapply Forall_impl; [|exact Fm]. intros [v d] [Nv Pd]. cbn [fst snd] in *. split; [|split; [discriminate|]].
    - split; [cbn [fst]; split; [constructor; [apply mok_var|constructor]|split; repeat constructor; discriminate]|]. constructor; [|constructor].
      intros w Hw. cbn in Hw. destruct (N.eqb_spec w v); [congruence|]. cbn in Hw. congruence.
    - cbn [snd]. apply (Nat.mul_le_mono 1 (Z.to_nat d) 1 mk); [lia|exact Lk]. }
  assert (Dr : mraw gr %| mraw g) by (exists (mprod sm (map (fun j : var * Z => ([(mono_var (fst j), 1)], Z.to_nat (snd j))) ms)); exact Em).
  assert (Fin : forall add, Forall ment add -> rmul K (rconst ct') (mprod sm add) == rmul K (rconst ct) (rmul K (rpow K (mraw gr) mk) (mprod sm l)) ->
    fs' = (fs ++ vs) ++ add ->
    exists add, fs' = fs ++ add /\ Forall ment add /\ rmul K (rconst ct') (mprod sm add) == rmul K (rconst ct) (rmul K (rpow K (mraw g) mk) (mprod sm l))).
  { intros add Fa Pa Ea. exists (vs ++ add). split; [rewrite Ea, <- app_assoc; reflexivity|]. split; [apply Forall_app; split; assumption|].
    rewrite mprod_app, Evs, Em, rpow_mul_.
    transitivity (rmul K (rpow K (mprod sm (map (fun j : var * Z => ([(mono_var (fst j), 1)], Z.to_nat (snd j))) ms)) mk) (rmul K (rconst ct') (mprod sm add))); [ring|].
    rewrite Pa. ring. }
  destruct (Nat.leb_spec (length (get_variables vo gr)) 1) as [Lr|Lr].
  { destruct (One (fs ++ vs) gr Gr Lr) as (add & Ea & Fa & Pa); [apply (sqf_nc_dvd (mraw g)); assumption|exact E|]. apply (Fin add Fa Pa Ea). }
  assert (Enr : is_number gr = false).
  { destruct (is_number gr) eqn:X; [|reflexivity]. rewrite (number_vars gr X) in Lr. cbn in Lr. lia. }
  destruct (not_number_first vo Hvo g Gg En) as [Nx _].
  pose proof (div_first vo Hvo g gr (first_var g) Gg Neg Gr eq_refl Nx Pr Dr Enr) as Fr.
  destruct (flip_good gr Gr Ner) as [Wf Pf]. destruct (flip_ok (lexS vo) (mok vo) sm gr (proj1 Gr)) as (_ & _ & Sg).
  destruct (wang_core _ _ _ _ _ _ _ _ _ _ _ _ (flip gr)) as [w| | |] eqn:Ew; cbn [obind] in E; try discriminate.
  assert (Ff : first_var (flip gr) = first_var g).
  { rewrite <- Fr. clear. destruct gr as [|t r]; [reflexivity|]. cbn [flip]. destruct (snd t <? 0); reflexivity. }
  assert (Df : mraw (flip gr) %| mraw g) by (apply (dvd_pm _ (mraw gr)); assumption).
  destruct (wang_core_ok (flip gr) Wf ltac:(rewrite Ff; exact Nx) ltac:(rewrite Ff; exact (prim_of_dvd K HD _ _ _ Pr Df)) fuel _ w Ew) as [Fw Pw].
  apply IH in E as (add & Ea & Fa & Pa). apply (Fin (scale_mult mk w ++ add)).
  - apply Forall_app. split; [|exact Fa]. apply scale_ment; [exact Lk|]. eapply Forall_impl; [|exact Fw]. intros t [(A & B & _) C]. split; [exact A|]. split; [exact B|]. rewrite C. apply Nat.le_refl.
  - rewrite mprod_app, scale_prod, Pw.
    transitivity (rmul K (rpow K (mraw (flip gr)) mk) (rmul K (rconst ct') (mprod sm add))); [ring|]. rewrite Pa.
    assert (Eneg : (match gr with t :: _ => snd t <? 0 | [] => false end) = (lcp gr <? 0)) by (destruct gr; reflexivity).
    rewrite Eneg. destruct (lcp gr <? 0); cbn [andb].
    + rewrite Sg, pow_opp. destruct (Nat.odd mk); [|ring]. change (rconst (- ct)) with (ropp K (rconst ct)). ring.
    + rewrite Sg. ring.
  - rewrite Ea, <- !app_assoc. reflexivity.
Qed.
Lemma fix_signs_ok fs : Forall ment fs -> forall ct, rmul K (rconst (fst (fix_signs ct fs))) (mprod sm (snd (fix_signs ct fs))) == rmul K (rconst ct) (mprod sm fs) /\
  Forall (fun t => ment t /\ 0 < lcp (fst t)) (snd (fix_signs ct fs)).
Proof.
  induction 1 as [|[p e] fs (Gp & Nep & Le) F IH]; intros ct; [split; [reflexivity|constructor]|].
  unfold fix_signs in *. cbn [fst snd fold_left map mprod fold_right] in *. fold (mprod sm fs).
  fold (mprod sm (map (fun t : poly * nat => (flip (fst t), snd t)) fs)).
  set (c1 := if (match p with u :: _ => snd u <? 0 | [] => false end) && Nat.odd e then - ct else ct).
  destruct (IH c1) as [Pa Fa]. destruct (flip_good p Gp Nep) as [(A & B & C) _]. split.
  - match goal with |- rmul K (rconst ?c) (rmul K ?a ?b) == _ => transitivity (rmul K a (rmul K (rconst c) b)); [ring|] end.
    etransitivity; [apply (rmul_proper K HK); [reflexivity|exact Pa]|].
    destruct (flip_ok (lexS vo) (mok vo) sm p (proj1 Gp)) as (_ & _ & Sg).
    assert (Eneg : (match p with u :: _ => snd u <? 0 | [] => false end) = (lcp p <? 0)) by (destruct p; reflexivity).
    unfold c1. rewrite Eneg. destruct (lcp p <? 0); cbn [andb].
    + rewrite Sg, pow_opp. destruct (Nat.odd e); [|ring]. change (rconst (- ct)) with (ropp K (rconst ct)). ring.
    + rewrite Sg. ring.
  - constructor; [|exact Fa]. split; [split; [exact A|split; [exact B|exact Le]]|exact C].
Qed.
Theorem factor_multivar_ok fuel pa (F : poly) ct fs : good F -> F <> [] -> factor_multivar fuel pa F = Ok (ct, fs) ->
  Forall (fun t => ment t /\ 0 < lcp (fst t)) fs /\ rmul K (rconst ct) (mprod sm fs) == mraw F.
Proof.
  intros G Ne E. unfold Factor.factor_multivar in E. destruct (sqf fuel _ F) as [l| | |] eqn:Es; cbn [obind] in E; try discriminate.
  destruct (multi_factors fuel _ l 1 []) as [[c1 f1]| | |] eqn:Em; cbn [obind] in E; try discriminate.
  destruct (sqf_prim vo Hvo _ _ _ _ _ _ _ rnd Env fuel _ F l G Ne Es) as (k & l' & El & Nk & Fl & Pl).
  assert (Fm : Forall mentry l).
  { rewrite El. constructor.
    - split; [split; [repeat constructor; exact Nk|constructor; [intros w Hw; cbn in Hw; congruence|constructor]]|]. split; [discriminate|]. split; [apply Nat.le_refl|discriminate].
    - eapply Forall_impl; [|exact Fl]. intros t (A & B & C & D & _ & H). split; [exact A|]. split; [exact B|]. split; [exact C|]. intros X. split; [|apply H, X].
      intros h Hh. destruct (proj1 (unit_spec h) (D h Hh)) as (c & Ec & _). exists c. exact Ec. }
  destruct (multi_factors_ok fuel _ l Fm 1 [] c1 f1 Em) as (add & Ea & Fa & Pa). cbn [app] in Ea. subst add.
  destruct (fix_signs_ok f1 Fa c1) as [Ps Fs]. destruct (fix_signs c1 f1) as [c2 f2]. injection E as <- <-. cbn [fst snd] in *.
  split; [apply (Permutation_Forall (we_sort _ _ _ Wenv f2) Fs)|].
  rewrite <- (mprod_perm sm _ _ (we_sort _ _ _ Wenv f2)), Ps, Pa, <- Pl, mprod_graws. change (rconst 1) with (r1 K). ring.
Qed.
Theorem factorize_ok fuel pa (F : poly) ct fs : good F -> factorize fuel pa F = Ok (ct, fs) ->
  Forall ment fs /\ pm (rmul K (rconst ct) (mprod sm fs)) (mraw F) /\
  (sqf_nc (mraw F) \/ (1 < length (get_variables vo F))%nat -> rmul K (rconst ct) (mprod sm fs) == mraw F).
Proof.
  intros G E. unfold Factor.factorize in E. destruct (Nat.ltb_spec 1 (length (get_variables vo F))) as [L|L].
  - assert (Ne : F <> []) by (intros ->; cbn in L; lia). destruct (factor_multivar_ok fuel pa F ct fs G Ne E) as [A B].
    split; [eapply Forall_impl; [|exact A]; intros t H; apply H|]. split; [apply pm_req, B|intros _; exact B].
  - destruct (factor_one_ok fuel pa F ct fs G L E) as (A & B & C). split; [exact A|]. split; [exact B|]. intros [H|H]; [apply C, H|lia].
Qed.
End Wang.
