(** * factorize for other monomial orders and for rational polynomials (polynomial_factorize.hh 125-235): model and proofs. *)
From Coq Require Import Ring_theory Ring Setoid Morphisms Znumtheory QArith Permutation.
From Verif Require Import Prelude Coef Spec SpecProofs SpecOps SpecOpsProofs GcdDom GcdPoly OrderSpec PairVec PairVecProofs Mono MonoProofs
  MonoStruct MonoStructProofs Heap Poly PolyMulProofs PolyOps PolyOpsGen PolyOpsProofs ConvertProofs QQ NumSpec QQProofs ZZProofs ConvertQQ
  Zp ZpProofs Gcd Sqf UGcd Factor GroebnerSpec GroebnerZZProofs.
Local Open Scope Z_scope.

(** factorize(polynomial_<ZZ,comp>), 129-148: conversion to lex, factorization, conversion of every factor back;
    [fz] is the factorization in lex order *)
Definition factorize_any (vo2 : vorder) (gt2 : mono -> mono -> bool) (msrt : list (var * Z) -> list (var * Z)) (srt : forall C : Type, Mono.poly C -> Mono.poly C)
  (msrt2 : list (var * Z) -> list (var * Z)) (srt2 : poly Z -> poly Z) (fz : poly Z -> outcome (Z * list (poly Z * nat))) (F : poly Z)
  : outcome (Z * list (poly Z * nat)) :=
  '(ct, fs) <- fz (to_lex msrt srt F) ;;
  Ok (ct, map (fun t => (from_lex vo2 gt2 msrt2 srt2 (fst t), snd t)) fs).

(** QQ(num, den), number/QQ.hh 44-47 *)
Definition qq_frac (n d : Z) : outcome qqc := if d =? 0 then Throw else Ok (qqc_quo (qqc_int n) (qqc_int d)).
Lemma qq_frac_make n d q : qq_frac n d = Ok q -> qq_make n d = Ok (proj1_sig q).
Proof.
  unfold qq_frac. destruct (Z.eqb_spec d 0) as [|Nd]; [discriminate|]. intros [= <-]. destruct (qq_make_ok n d Nd) as (r & E & Ok1 & V). rewrite E. f_equal.
  apply qq_unique; [exact Ok1|apply qqc_ok|].
  assert (Nd' : qqc_int d <> c0 QQc) by (intros X; apply (qint_inj d 0) in X; contradiction).
  pose proof (field_quo QQc QQc_field (qqc_int n) (qqc_int d) Nd') as Q.
  apply (f_equal qcval) in Q. cbn [cmul QQc cquo] in Q. assert (Q' : (qcval (qqc_mul (qqc_quo (qqc_int n) (qqc_int d)) (qqc_int d)) == inject_Z n)%Q) by (rewrite Q; reflexivity).
  rewrite qcval_mul, qcval_int in Q'. rewrite <- V in Q'. symmetry.
  apply (Qmult_inj_r _ _ (inject_Z d)); [|exact Q']. intros X. apply Nd. unfold Qeq in X. cbn in X. lia.
Qed.
(** one factor, 191-208: divided by its leading coefficient, which goes into the content *)
Fixpoint monic_terms (lc : Z) (p : poly Z) : outcome (poly qqc) :=
  match p with [] => Ok [] | t :: r => c <- qq_frac (snd t) lc ;; r' <- monic_terms lc r ;; Ok ((fst t, c) :: r') end.
Fixpoint monic_factors (ct : qqc) (fs : list (poly Z * nat)) : outcome (qqc * list (poly qqc * nat)) :=
  match fs with
  | [] => Ok (ct, [])
  | (f, e) :: r =>
      match f with
      | [] => UB
      | t :: _ =>
          g <- monic_terms (snd t) f ;;
          '(c, l) <- monic_factors (qqc_mul ct (qqc_int (snd t ^ Z.of_nat e))) r ;;
          Ok (c, (g, e) :: l)
      end
  end.
(** factorize(polynomial_<QQ,comp>), 154-235; [fz] is factorize(polynomial_<ZZ,comp>) *)
Definition factorize_qq (vo : vorder) (gt : mono -> mono -> bool) (msrt : list (var * Z) -> list (var * Z)) (srt : poly Z -> poly Z)
  (fz : poly Z -> outcome (Z * list (poly Z * nat))) (F : poly qqc) : outcome (qqc * list (poly qqc * nat)) :=
  match F with
  | [] => Ok (qqc_int 0, [])
  | t :: _ =>
      if is_number F then Ok (snd t, [])
      else
        '(ct, fs) <- fz (p_convert_qq vo gt msrt srt F) ;;
        c <- qq_frac ct (qq_common_den F) ;;
        monic_factors c fs
  end.

Local Notation HQ := (domain_ring _ (field_domain _ QQc_field)).
Local Notation HZ := (domain_ring _ Zc_domain).
Local Notation "a == b" := (req QQc a b) (at level 70).
Local Instance HQi : ring_ok QQc := HQ.
Add Ring Qring : (rring QQc HQi) (setoid (req_equiv QQc) (rring_ext QQc HQi)).

Fixpoint qprod (l : list (poly qqc * nat)) : rpoly qqc :=
  match l with [] => rconst (qqc_int 1) | (q, e) :: l => rmul QQc (rpow QQc (graw sm q) e) (qprod l) end.
Fixpoint zprod (l : list (poly Z * nat)) : rpoly Z :=
  match l with [] => rconst 1 | (q, e) :: l => rmul Zc (rpow Zc (graw sm q) e) (zprod l) end.

Lemma rpow_qpoly p n : qpoly (rpow Zc p n) = rpow QQc (qpoly p) n.
Proof. induction n as [|n IH]; [reflexivity|]. cbn [rpow]. rewrite rmul_qpoly, IH. reflexivity. Qed.
Lemma rconst_mulq a b : rconst (qqc_mul a b) == rmul QQc (rconst a) (rconst b).
Proof. symmetry. apply (rconst_mul QQc). Qed.
Lemma pow_constq k n : rpow QQc (rconst (qqc_int k)) n == rconst (qqc_int (k ^ Z.of_nat n)).
Proof.
  induction n as [|n IH]; [reflexivity|]. cbn [rpow]. rewrite IH, Nat2Z.inj_succ, Z.pow_succ_r by (clear; lia). rewrite qint_mul, rconst_mulq. ring.
Qed.
Lemma rpow_mulq p q n : rpow QQc (rmul QQc p q) n == rmul QQc (rpow QQc p n) (rpow QQc q n).
Proof. induction n as [|n IH]; cbn [rpow]; [ring|]. rewrite IH. ring. Qed.
Section Q.
Context (vo : vorder) (Hv : vorder_ok vo) (S : monos mono) (HS : S = lexS vo \/ S = grlexS vo).
Context (msrt : list (var * Z) -> list (var * Z)) (Hms : sort_ok (fun _ : var => True) vo msrt).
Context (srt : poly Z -> poly Z) (Hsrt : sort_ok (mok vo) (m_gt S) srt).
Notation normZ := (normal (mok vo) (m_gt S) Zc).
Notation normQ := (normal (mok vo) (m_gt S) QQc).

Lemma frac_ok n d q : qq_frac n d = Ok q -> qqc_mul q (qqc_int d) = qqc_int n /\ d <> 0.
Proof.
  unfold qq_frac. destruct (Z.eqb_spec d 0) as [|Nd]; [discriminate|]. intros [= <-]. split; [|exact Nd].
  apply (field_quo QQc QQc_field). intros X. apply (qint_inj d 0) in X. contradiction.
Qed.
Lemma monic_terms_ok lc p q : monic_terms lc p = Ok q -> map fst q = map fst p /\
  qpoly (graw sm p) == rmul QQc (rconst (qqc_int lc)) (graw sm q) /\ (Forall (fun t => snd t <> 0) p -> Forall (fun t => snd t <> c0 QQc) q).
Proof.
  revert q. induction p as [|t p IH]; intros q E; cbn [monic_terms] in E; [injection E as <-; split; [reflexivity|]; split; [reflexivity|constructor]|].
  destruct (qq_frac (snd t) lc) as [c| | |] eqn:Ec; cbn [obind] in E; try discriminate.
  destruct (monic_terms lc p) as [r| | |]; cbn [obind] in E; try discriminate. injection E as <-. destruct (IH r eq_refl) as (A & B & D). destruct (frac_ok _ _ _ Ec) as [F Nl].
  split; [cbn [map fst]; rewrite A; reflexivity|]. split.
  - change (graw sm (t :: p)) with (radd (C := Z) [(sm (fst t), snd t)] (graw sm p)). change (graw sm ((fst t, c) :: r)) with (radd (C := qqc) [(sm (fst t), c)] (graw sm r)).
    unfold radd at 1. rewrite qpoly_app. change (qpoly [(sm (fst t), snd t)] ++ qpoly (graw sm p)) with (radd (qpoly [(sm (fst t), snd t)]) (qpoly (graw sm p))). rewrite B.
    transitivity (radd (rmul QQc (rconst (qqc_int lc)) [(sm (fst t), c)]) (rmul QQc (rconst (qqc_int lc)) (graw sm r))); [|ring].
    apply (radd_proper QQc HQ); [|reflexivity]. cbn [qpoly map fst snd]. rewrite <- F.
    change (rmul QQc (rconst (qqc_int lc)) [(sm (fst t), c)]) with [(sm (fst t), qqc_mul (qqc_int lc) c)]. apply (req_single QQc); [reflexivity|].
    apply (Rmul_comm (ring_laws QQc HQ)).
  - intros Fp. constructor; [|apply D; exact (Forall_inv_tail Fp)]. cbn [snd]. intros X. apply (Forall_inv Fp).
    rewrite X in F. apply qint_inj. rewrite <- F. apply qcval_inj. rewrite qcval_mul, !qcval_int. reflexivity.
Qed.
Lemma frac_self n q : qq_frac n n = Ok q -> q = qqc_int 1.
Proof.
  intros E. apply frac_ok in E as [E Nn]. apply qcval_inj. apply (f_equal qcval) in E. rewrite qcval_int.
  assert (X : (qcval (qqc_mul q (qqc_int n)) == inject_Z n)%Q) by (rewrite E; reflexivity). rewrite qcval_mul, qcval_int in X.
  apply (Qmult_inj_r _ _ (inject_Z n)); [|rewrite X; ring]. intros Y. apply Nn. unfold Qeq in Y. cbn in Y. lia.
Qed.
Lemma monic_normal lc p q : normZ p -> monic_terms lc p = Ok q -> normQ q.
Proof.
  intros (A & B & C) E. destruct (monic_terms_ok lc p q E) as (M & _ & D). split; [|split; [|apply D, C]].
  - unfold all_ok in *. rewrite Forall_forall in A |- *. intros t Ht. apply (in_map fst) in Ht. rewrite M in Ht. apply in_map_iff in Ht as (u & Eu & Hu). rewrite <- Eu. apply (A u Hu).
  - unfold desc in *. rewrite M. exact B.
Qed.
Lemma monic_factors_ok fs : Forall (fun t => normZ (fst t)) fs -> forall ct c l, monic_factors ct fs = Ok (c, l) ->
  Forall (fun t => normQ (fst t) /\ match fst t with [] => False | u :: _ => snd u = qqc_int 1 end) l /\ map snd l = map snd fs /\
  rmul QQc (rconst c) (qprod l) == rmul QQc (rconst ct) (qpoly (zprod fs)).
Proof.
  induction fs as [|[f e] fs IH]; intros F ct c l E; cbn [monic_factors] in E; [injection E as <- <-; split; [constructor|split; reflexivity]|].
  destruct f as [|t f]; [discriminate|]. destruct (monic_terms (snd t) (t :: f)) as [g| | |] eqn:Eg; cbn [obind] in E; try discriminate.
  destruct (monic_factors (qqc_mul ct (qqc_int (snd t ^ Z.of_nat e))) fs) as [[c1 l1]| | |] eqn:E1; cbn [obind] in E; try discriminate. injection E as <- <-.
  destruct (IH (Forall_inv_tail F) _ _ _ E1) as (A & M & B). pose proof (Forall_inv F) as Nf. cbn [fst] in Nf.
  destruct (monic_terms_ok _ _ _ Eg) as (Mg & Pg & _). split; [|split].
  - constructor; [|exact A]. cbn [fst]. split; [apply (monic_normal (snd t) (t :: f) g Nf Eg)|].
    cbn [monic_terms] in Eg. destruct (qq_frac (snd t) (snd t)) as [q| | |] eqn:Eq; cbn [obind] in Eg; try discriminate.
    destruct (monic_terms (snd t) f); cbn [obind] in Eg; try discriminate. injection Eg as <-. cbn [snd]. apply (frac_self _ _ Eq).
  - cbn [map snd]. rewrite M. reflexivity.
  - cbn [qprod zprod]. rewrite rmul_qpoly, rpow_qpoly.
    transitivity (rmul QQc (rpow QQc (graw sm g) e) (rmul QQc (rconst c1) (qprod l1))); [ring|]. rewrite B, rconst_mulq, <- pow_constq, Pg, rpow_mulq. ring.
Qed.
(** the factorization of a rational polynomial is right if the one of the integer polynomial is right, up to the same sign *)
Theorem factorize_qq_ok fz (F : poly qqc) c l : normQ F ->
  (forall P ct fs den, normZ P -> den <> 0 -> qpoly (graw sm P) == rmul QQc (rconst (qqc_int den)) (graw sm F) -> fz P = Ok (ct, fs) -> Forall (fun t => normZ (fst t)) fs) ->
  factorize_qq vo (m_gt S) msrt srt fz F = Ok (c, l) ->
  Forall (fun t => normQ (fst t) /\ match fst t with [] => False | u :: _ => snd u = qqc_int 1 end) l /\
  ((rmul QQc (rconst c) (qprod l) == graw sm F /\ l = []) \/
   exists P ct fs den, den <> 0 /\ normZ P /\ qpoly (graw sm P) == rmul QQc (rconst (qqc_int den)) (graw sm F) /\ fz P = Ok (ct, fs) /\ map snd l = map snd fs /\
     forall k, req Zc (rmul Zc (rconst ct) (zprod fs)) (rmul Zc (rconst k) (graw sm P)) -> rmul QQc (rconst c) (qprod l) == rmul QQc (rconst (qqc_int k)) (graw sm F)).
Proof.
  intros N Hz E. unfold factorize_qq in E. destruct F as [|t F].
  { injection E as <- <-. split; [constructor|]. left. split; [|reflexivity].
    assert (X : rconst (qqc_int 0) == r0) by exact (rconst_0 QQc (field_domain _ QQc_field)). cbn [qprod]. change (graw sm (@nil (mono * qqc))) with (@r0 qqc). rewrite X. ring. }
  destruct (is_number (t :: F)) eqn:En.
  { injection E as <- <-. split; [constructor|]. left. split; [|reflexivity]. destruct F as [|u F]; [|discriminate]. cbn in En. unfold mempty in En. destruct (md (fst t)) eqn:Em; [|discriminate].
    cbn [qprod graw map]. assert (Es : sm (fst t) = []) by (unfold sm; rewrite Em; reflexivity). unfold graw. cbn [map]. rewrite Es.
    transitivity (rmul QQc (rconst (snd t)) (r1 QQc)); [reflexivity|]. transitivity (rconst (snd t)); [ring|]. apply (req_single QQc); reflexivity. }
  set (F0 := t :: F) in *. destruct (fz (p_convert_qq vo (m_gt S) msrt srt F0)) as [[ct fs]| | |] eqn:Ez; cbn [obind] in E; try discriminate.
  destruct (qq_frac ct (qq_common_den F0)) as [c0'| | |] eqn:Ec; cbn [obind] in E; try discriminate.
  assert (Conv := convert_qq_spec vo vo Hv Hv S S HS HS msrt Hms srt Hsrt F0 N). cbv zeta in Conv.
  set (P := p_convert_qq vo (m_gt S) msrt srt F0) in *.
  assert (Cd : normZ P /\ forall s, (inject_Z (coef Zc (graw sm P) s) == inject_Z (qq_common_den F0) * qcval (coef QQc (graw sm F0) s))%Q).
  { exact (convert_qq_den vo vo Hv Hv S S HS HS msrt Hms srt Hsrt F0 N). }
  clear Conv. destruct Cd as [NP CP]. destruct (frac_ok _ _ _ Ec) as [Fc Nd].
  assert (HP : qpoly (graw sm P) == rmul QQc (rconst (qqc_int (qq_common_den F0))) (graw sm F0)).
  { intros s. rewrite coef_qpoly, (coef_rconst_mul QQc HQ). apply qcval_inj. cbn [cmul QQc]. rewrite qcval_mul, !qcval_int. apply CP. }
  destruct (monic_factors_ok fs (Hz P ct fs _ NP Nd HP Ez) _ _ _ E) as (A & M & B). split; [exact A|]. right.
  exists P, ct, fs, (qq_common_den F0). split; [exact Nd|]. split; [exact NP|]. split; [exact HP|]. split; [exact Ez|]. split; [exact M|].
  intros k Hk. rewrite B. apply req_qpoly in Hk. rewrite !rmul_qpoly in Hk. rewrite HP in Hk.
  assert (RQ : forall z, qpoly (rconst z) = rconst (qqc_int z)) by reflexivity. rewrite !RQ in Hk.
  set (dq := qqc_int (qq_common_den F0)) in *.
  assert (Ndq : dq <> c0 QQc) by (intros X; apply (qint_inj _ 0) in X; contradiction).
  assert (Inv : rmul QQc (rconst (cquo QQc (c1 QQc) dq)) (rconst dq) == r1 QQc).
  { etransitivity; [apply (rconst_mul QQc)|]. rewrite (field_quo QQc QQc_field _ _ Ndq). reflexivity. }
  assert (X : rmul QQc (rconst dq) (rmul QQc (rconst c0') (qpoly (zprod fs))) == rmul QQc (rconst dq) (rmul QQc (rconst (qqc_int k)) (graw sm F0))).
  { transitivity (rmul QQc (rmul QQc (rconst c0') (rconst dq)) (qpoly (zprod fs))); [ring|]. rewrite <- rconst_mulq, Fc, Hk. ring. }
  transitivity (rmul QQc (r1 QQc) (rmul QQc (rconst c0') (qpoly (zprod fs)))); [ring|]. rewrite <- Inv.
  transitivity (rmul QQc (rconst (cquo QQc (c1 QQc) dq)) (rmul QQc (rconst dq) (rmul QQc (rconst c0') (qpoly (zprod fs))))); [ring|]. rewrite X.
  transitivity (rmul QQc (rmul QQc (rconst (cquo QQc (c1 QQc) dq)) (rconst dq)) (rmul QQc (rconst (qqc_int k)) (graw sm F0))); [ring|]. rewrite Inv. ring.
Qed.
End Q.
Lemma rmul_1q p : rmul QQc (rconst (qqc_int 1)) p == p.
Proof. change (rconst (qqc_int 1)) with (r1 QQc). ring. Qed.
Lemma rmul_m1q p : rmul QQc (rconst (qqc_int (-1))) p == ropp QQc p.
Proof.
  assert (E : rconst (qqc_int (-1)) == ropp QQc (r1 QQc)) by (apply (req_single QQc); [reflexivity|apply qcval_inj; reflexivity]).
  rewrite E. ring.
Qed.
Lemma inv_unit d : d <> c0 QQc -> rmul QQc (rconst (cquo QQc (c1 QQc) d)) (rconst d) == r1 QQc.
Proof. intros N. etransitivity; [apply (rconst_mul QQc)|]. rewrite (field_quo QQc QQc_field _ _ N). reflexivity. Qed.
Lemma inv_scale d p q : d <> c0 QQc -> rmul QQc (rconst d) p == rmul QQc (rconst d) q -> p == q.
Proof.
  intros N E. transitivity (rmul QQc (r1 QQc) p); [ring|]. rewrite <- (inv_unit d N).
  transitivity (rmul QQc (rconst (cquo QQc (c1 QQc) d)) (rmul QQc (rconst d) p)); [ring|]. rewrite E.
  transitivity (rmul QQc (rmul QQc (rconst (cquo QQc (c1 QQc) d)) (rconst d)) q); [ring|]. rewrite (inv_unit d N). ring.
Qed.
Lemma inv_back d p q : d <> c0 QQc -> rmul QQc p q == rmul QQc (rconst d) (rmul QQc (rmul QQc (rconst (cquo QQc (c1 QQc) d)) p) q).
Proof.
  intros N. symmetry. transitivity (rmul QQc (rmul QQc (rconst (cquo QQc (c1 QQc) d)) (rconst d)) (rmul QQc p q)); [ring|]. rewrite (inv_unit d N). ring.
Qed.
