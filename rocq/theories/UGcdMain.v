(** * The univariate gcd over the integers: every returned value is a greatest common divisor (UGcd.v). *)
From Coq Require Import Ring_theory Ring Setoid Morphisms Znumtheory Sorting.Sorted.
From Verif Require Import Prelude Coef Spec SpecProofs SpecOps SpecOpsProofs GcdDom GcdPoly GcdMath OrderSpec PairVec PairVecProofs
  Mono MonoStruct MonoStructProofs Heap Poly PolyMulProofs Div PolyDivProofs PolyOps PolyOpsGen GcdRep Zp NumSpec ZpProofs
  Gcd GcdProofs UGcd UGcdBase UGcdProofs UGcdMod UGcdCrt UGcdHeu.
Local Open Scope Z_scope.

Local Notation K := Zc.
Local Notation HD := Zc_domain.
Local Notation HG := Z_cgcd.
Local Instance HK : ring_ok K := domain_ring K Zc_domain.
Add Ring Rring : (rring K HK) (setoid (req_equiv K) (rring_ext K HK)).
Local Notation norm := (normal uok (m_gt uniS) K).
Local Notation graw := (graw usm).
Local Notation "a == b" := (req K a b) (at level 70).
Local Notation "a %| b" := (rdivides K a b) (at level 70).

Lemma const_gcd a b : is_gcd K (rconst a) (rconst b) (rconst (Z.gcd a b)).
Proof.
  assert (X : forall c, (Z.gcd a b | c) -> rconst (Z.gcd a b) %| rconst c).
  { intros c [e ->]. exists (rconst e). rewrite (rconst_mul K). reflexivity. }
  split; [apply X, Z.gcd_divide_l|]. split; [apply X, Z.gcd_divide_r|].
  destruct (Z.gcd_bezout a b _ eq_refl) as (u & v & E). intros d [p Ep] [q Eq]. exists (radd (rmul K (rconst u) p) (rmul K (rconst v) q)).
  transitivity (radd (rmul K (rconst u) (rconst a)) (rmul K (rconst v) (rconst b))); [|rewrite Ep, Eq; ring].
  rewrite !(rconst_mul K). rewrite <- E. intros s. cbn [radd app rconst Spec.coef cmul cadd Zc]. destruct (meqb [] s); cbn; lia.
Qed.
Lemma two_terms (t u : Z * Z) (r : upz) : norm (t :: u :: r) -> 1 <= fst t.
Proof. intros N. pose proof (uhead_lt K t (u :: r) u N (or_introl eq_refl)). lia. Qed.

Theorem upoly_gcd_ok srt ps fuel G F R : (forall i, prime (pm (ps i))) -> norm F -> norm G -> udeg F < maxdeg -> udeg G < maxdeg ->
  upoly_gcd srt ps fuel G F = Ok R -> norm R /\ is_gcd K (graw F) (graw G) (graw R).
Proof.
  intros Hps NF NG SF SG E. unfold upoly_gcd in E.
  destruct F as [|tf rf]; [assert (X : G = R) by congruence; subst R; split; [exact NG|apply (is_gcd_0_l K HD)]|].
  destruct G as [|tg rg]; [assert (X : tf :: rf = R) by congruence; subst R; split; [exact NF|apply (is_gcd_0_r K HD)]|].
  destruct rf as [|uf rf].
  { cbn [orb] in E. injection E as <-. apply (usingle_ok tf [] tg rg NF NG). auto. }
  destruct rg as [|ug rg].
  { cbn [orb] in E. injection E as <-. apply (usingle_ok tf (uf :: rf) tg [] NF NG). auto. }
  cbn [orb] in E. cbv zeta in E. set (F := tf :: uf :: rf) in *. set (G := tg :: ug :: rg) in *.
  assert (NeF : F <> []) by discriminate. assert (NeG : G <> []) by discriminate.
  pose proof (ucont_ok F NF NeF) as IcF. pose proof (ucont_ok G NG NeG) as IcG. pose proof (ucont_nz F NF NeF) as NcF. pose proof (ucont_nz G NG NeG) as NcG.
  destruct (uquot_ok F (ucont F) NF NcF (proj1 (ucont_spec F NeF))) as (NF' & EF & _). destruct (uquot_ok G (ucont G) NG NcG (proj1 (ucont_spec G NeG))) as (NG' & EG & _).
  set (cF := ucont F) in *. set (cG := ucont G) in *. clearbody cF cG.
  set (F' := map (fun t => (fst t, Z.quot (snd t) cF)) F) in *. set (G' := map (fun t => (fst t, Z.quot (snd t) cG)) G) in *.
  assert (Ncg : Z.gcd cF cG <> 0) by (intros X; apply Z.gcd_eq_0_l in X; contradiction).
  assert (NzF : ~ graw F == r0) by (apply (unz K HD F NF), NeF). assert (NzG : ~ graw G == r0) by (apply (unz K HD G NG), NeG).
  assert (Fin : forall P d, P %| graw F' -> P %| graw G' -> deg_is K P 0%N d -> (forall D, D %| graw F' -> D %| graw G' -> deg_le K D 0%N d) ->
            is_gcd K (graw F) (graw G) (rmul K P (rconst (Z.gcd cF cG)))).
  { intros P d PF PG Dd UD. apply (gcd_from_pp K HD HG 0%N _ _ (rconst cF) (rconst cG) (graw F') (graw G')); try assumption; [apply const_gcd|].
    intros D e D1 D2 De Le. assert (e = d) as ->; [|exact Dd].
    assert (X1 : (d <= e)%N) by (destruct Dd as [_ [->|(m & Hm & <-)]]; [apply N.le_0_l|apply Le, Hm]).
    assert (X2 : (e <= d)%N) by (destruct De as [_ [->|(m & Hm & <-)]]; [apply N.le_0_l|apply (UD D D1 D2), Hm]). lia. }
  destruct (gcdheu srt fuel F' G') as [[H|]| | |] eqn:Eh; try discriminate; cbn [obind] in E.
  - apply gcdheu_ok in Eh; [|exact NF'|exact NG'|apply (two_terms tf uf rf NF)|apply (two_terms tg ug rg NG)].
    destruct Eh as (NH & D1 & D2 & d & Dd & UD). pose proof (Fin _ d D1 D2 Dd UD) as Ig.
    injection E as <-. destruct (Z.eqb_spec (Z.gcd cF cG) 1) as [E1|_].
    + split; [exact NH|]. rewrite E1 in Ig. apply (is_gcd_proper K HD _ _ (reflexivity _) _ _ (reflexivity _) _ (rmul K (graw H) (rconst 1))); [change (rconst 1) with (r1 K); ring|exact Ig].
    + destruct (uscale_ok H (Z.gcd cF cG) NH Ncg) as [A B]. split; [exact A|].
      apply (is_gcd_proper K HD _ _ (reflexivity _) _ _ (reflexivity _) _ _ B). exact Ig.
  - apply (ucrt_loop_ok ps Hps F' G') in E; [|exact NF'|exact NG'|exact SF|exact SG|apply Z.gcd_divide_l|exact Ncg|split; [constructor|split; constructor]].
    destruct E as (NR & P & d & ER & D1 & D2 & Dd & UD). split; [exact NR|].
    apply (is_gcd_proper K HD _ _ (reflexivity _) _ _ (reflexivity _) _ _ ER). apply (Fin P d D1 D2 Dd UD).
Qed.
