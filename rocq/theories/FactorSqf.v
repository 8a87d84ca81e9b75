(** * More about the squarefree factorization: primitivity of the factors, and the case of a squarefree polynomial (Sqf.v). *)
From Coq Require Import Ring_theory Ring Setoid Morphisms Znumtheory Sorting.Sorted Permutation.
From Verif Require Import Prelude Coef Spec SpecProofs SpecOps SpecOpsProofs GcdDom GcdPoly GcdMath SqfMath OrderSpec PairVec PairVecProofs
  Mono MonoProofs MonoStruct MonoStructProofs Heap Poly PolyMulProofs Div PolyDivProofs PolyOps MonoOpsProofs PolyOpsGen PolyOpsProofs
  PolyOps2Proofs ConvertProofs PolyOps3Proofs Groebner Zp NumSpec ZpProofs Gcd GcdHom GcdLex GcdZpProofs GcdCont GcdRep GcdTerm GcdProofs GcdMain Sqf SqfProofs.
Local Open Scope Z_scope.

Section FS.
Context (vo : vorder) (Hvo : vorder_ok vo).
Notation K := Zc.
Let HD : domain_ok K := Zc_domain.
Let HK : ring_ok K := domain_ring K HD.
Let HG : cgcd_ok K := Z_cgcd.
Local Existing Instance HK.
Add Ring Rring : (rring K HK) (setoid (req_equiv K) (rring_ext K HK)).
Notation gt := (lex_gt vo).
Notation norm := (normal (mok vo) gt K).
Notation graw := (graw sm).
Notation poly := (poly Z).
Notation good := (good vo).
Notation "a == b" := (req K a b) (at level 70).
Notation "a %| b" := (rdivides K a b) (at level 70).
Notation unit := (unit K).
Let M1 := lexS_ok vo Hvo.
Variable msrt : list (var * Z) -> list (var * Z).
Variable srt : forall C : Type, Mono.poly C -> Mono.poly C.
Variable mcomp qcomp : poly -> poly -> outcome (option poly).
Variable rcomp : poly -> poly -> outcome (option (poly * poly)).
Variable zcomp : forall p (Hp : modulus p), Mono.poly (zpc p) -> Mono.poly (zpc p) -> outcome (option (Mono.poly (zpc p) * Mono.poly (zpc p))).
Variable ps : nat -> pmod.
Variable rnd : path -> nat -> Z.
Hypothesis Env : gcd_env vo msrt srt mcomp qcomp rcomp zcomp ps.
Notation sqf := (squarefreefactorize vo msrt srt mcomp qcomp rcomp zcomp ps rnd).
Notation gcd := (poly_gcd vo msrt srt mcomp qcomp rcomp zcomp ps rnd).
Notation cont := (poly_cont vo msrt srt mcomp qcomp rcomp zcomp ps rnd).

(** what the factors after the first look like *)
Definition sentry (t : poly * nat) : Prop :=
  good (fst t) /\ fst t <> [] /\ (1 <= snd t)%nat /\ sqfree (graw (fst t)) /\
  (is_number (fst t) = true -> unit (graw (fst t))) /\ (is_number (fst t) = false -> is_prim K (first_var (fst t)) (graw (fst t))).

Lemma rprod_in l t : In t l -> (1 <= snd t)%nat -> fst t %| rprod l.
Proof.
  intros H L. induction l as [|u l IH]; [destruct H|]. cbn [rprod fold_right]. destruct H as [->|H].
  - destruct (snd t) as [|n]; [lia|]. cbn [rpow]. exists (rmul K (rpow K (fst t) n) (rprod l)). unfold rprod. ring.
  - destruct (IH H) as [q Eq]. exists (rmul K (rpow K (fst u) (snd u)) q). fold (rprod l). rewrite Eq. ring.
Qed.
Lemma rrad_in l t : In t l -> fst t %| rrad l.
Proof.
  intros H. induction l as [|u l IH]; [destruct H|]. cbn [rrad fold_right]. destruct H as [->|H].
  - exists (rrad l). unfold rrad. ring.
  - destruct (IH H) as [q Eq]. exists (rmul K (fst u) q). fold (rrad l). rewrite Eq. ring.
Qed.
Lemma graws_in (l : list (poly * nat)) t : In t l -> In (graw (fst t), snd t) (graws l).
Proof. intros H. unfold graws. apply (in_map (fun t => (graw (fst t), snd t))), H. Qed.

Theorem sqf_prim fuel : forall pa F r, good F -> F <> [] -> sqf fuel pa F = Ok r ->
  exists k l, r = ([(mono1, k)], 1%nat) :: l /\ k <> 0 /\ Forall sentry l /\ rprod (graws r) == graw F.
Proof.
  intros pa F r G Ne E.
  assert (X : exists c l, r = (c, 1%nat) :: l /\ Forall (fun t => good (fst t) /\ fst t <> [] /\ (1 <= snd t)%nat /\
    (is_number (fst t) = true -> unit (graw (fst t))) /\ (is_number (fst t) = false -> is_prim K (first_var (fst t)) (graw (fst t)))) l).
  { revert pa F r G Ne E. induction fuel as [|f IH]; intros pa F r G Ne E; [discriminate|]. cbn [squarefreefactorize] in E.
    destruct F as [|t0 r0']; [congruence|]. set (F := t0 :: r0') in *. destruct (is_number F) eqn:En.
    { injection E as <-. eexists _, []. split; [reflexivity|constructor]. }
    destruct (not_number_first vo Hvo F G En) as [Nx _]. set (x := first_var F) in *.
    destruct (poly_cont _ _ _ _ _ _ _ _ _ _ _ F) as [c| | |] eqn:Ec; try discriminate. cbn [obind] in E.
    destruct (poly_cont_ok vo Hvo _ _ _ _ _ _ _ _ Env _ _ F c G Ec) as (Gc & _ & Ic). specialize (Ic Ne). fold x in Ic.
    pose proof (cont_nz vo Hvo F c Ne G Gc Ic) as Cne.
    destruct (pdiv vo qcomp f F c) as [F_| | |] eqn:Ed; try discriminate. cbn [obind] in E.
    destruct (pdiv_spec vo Hvo _ _ _ _ _ _ _ Env f F c F_ (proj1 G) (proj1 Gc) Cne (proj1 (proj2 Ic)) Ed) as [N_ X_].
    pose proof (proj1 (nz_iff vo Hvo K HD F (proj1 G)) Ne) as NzF.
    assert (P_ : is_prim K x (graw F_)) by (apply (pp_prim K HD HG x (graw F) (graw c)); assumption).
    destruct (pp_first vo Hvo F F_ c x G Ne N_ eq_refl Nx (proj1 Ic) X_) as (Ne_ & V_ & Ex_).
    pose proof (varx_good vo x F_ N_ V_) as G_. pose proof (proj1 (nz_iff vo Hvo K HD F_ N_) Ne_) as Nz_.
    destruct (squarefreefactorize _ _ _ _ _ _ _ _ _ f _ c) as [lc| | |] eqn:Es; try discriminate. cbn [obind] in E.
    apply (IH _ _ _ Gc Cne) in Es as (k & lk & -> & Hlk). clear IH.
    apply (sqf_loop_ok vo Hvo _ _ _ _ _ _ _ _ Env x f Nx _ 1 F_ [] _ r) in E; auto; [|repeat constructor].
    destruct E as (l & -> & Hl & Q & _). destruct (Q eq_refl) as [Q1 Q2]. clear Q.
    exists k, (lk ++ l). split; [reflexivity|]. apply Forall_app. split; [exact Hlk|].
    rewrite Forall_forall in Hl |- *. intros t Ht. destruct (Hl t Ht) as [Gt Lt].
    assert (Dt : graw (fst t) %| graw F_).
    { destruct (rprod_in (graws l) (graw (fst t), snd t) (graws_in l t Ht) Lt) as [q Eq]. exists q. rewrite <- Q1. exact Eq. }
    assert (Net : fst t <> []) by (apply (nz_iff vo Hvo K HD _ (proj1 Gt)), (rd_nz K HD _ _ Dt Nz_)).
    split; [exact Gt|]. split; [exact Net|]. split; [exact Lt|].
    split; [intros Hn; exact (number_unit vo Hvo F_ (fst t) x Gt Net P_ Dt Hn)|]. intros Hn.
    rewrite (div_first vo Hvo F_ (fst t) x G_ Ne_ Gt Ex_ Nx P_ Dt Hn). exact (prim_of_dvd K HD x _ _ P_ Dt). }
  destruct X as (c & l & -> & Fl).
  destruct (squarefreefactorize_ok vo Hvo _ _ _ _ _ _ _ _ Env fuel pa F _ G Ne E) as (c' & l' & Er & Gc & (k & Ek) & _ & Pr & Sq).
  injection Er as <- <-. assert (Nk : k <> 0).
  { intros ->. apply (proj1 (nz_iff vo Hvo K HD F (proj1 G)) Ne). rewrite <- Pr. cbn [graws map rprod fold_right fst snd rpow].
    rewrite Ek. rewrite (rconst_0 K HD). ring. }
  exists k, l. split.
  { f_equal. f_equal. apply (gnormal_req (lexS vo) (mok vo) sm K M1 HK); [apply Gc| |exact Ek]. repeat constructor. exact Nk. }
  split; [exact Nk|]. split; [|exact Pr]. rewrite Forall_forall in Fl |- *. intros t Ht. destruct (Fl t Ht) as (A & B & C & D). split; [exact A|]. split; [exact B|]. split; [exact C|].
  split; [|exact D]. apply (sqfree_dvd (rrad (graws l))); [exact Sq|]. apply (rrad_in (graws l) (graw (fst t), snd t) (graws_in l t Ht)).
Qed.

(** ** a squarefree polynomial with content 1 *)
Lemma sqf_one fuel pa F r : good F -> F <> [] -> is_number F = false -> is_prim K (first_var F) (graw F) -> sqf_nc (graw F) ->
  (forall f c, cont f (0%nat :: pa) F = Ok c -> c = [(mono1, 1)]) ->
  sqf fuel pa F = Ok r -> r = [([(mono1, 1)], 1%nat); (F, 1%nat)].
Proof.
  intros G Ne En P S Hc E. destruct fuel as [|f]; [discriminate|]. cbn [squarefreefactorize] in E.
  destruct F as [|t0 r0']; [congruence|]. set (F := t0 :: r0') in *. rewrite En in E.
  destruct (not_number_first vo Hvo F G En) as [Nx _]. set (x := first_var F) in *.
  destruct (poly_cont _ _ _ _ _ _ _ _ _ _ _ F) as [c| | |] eqn:Ec; try discriminate. cbn [obind] in E.
  destruct (poly_cont_ok vo Hvo _ _ _ _ _ _ _ _ Env _ _ F c G Ec) as (Gc & _ & Ic). specialize (Ic Ne). fold x in Ic.
  pose proof (cont_nz vo Hvo F c Ne G Gc Ic) as Cne.
  destruct (pdiv vo qcomp f F c) as [F_| | |] eqn:Ed; try discriminate. cbn [obind] in E.
  destruct (pdiv_spec vo Hvo _ _ _ _ _ _ _ Env f F c F_ (proj1 G) (proj1 Gc) Cne (proj1 (proj2 Ic)) Ed) as [N_ X_].
  pose proof (Hc f c Ec) as ->. assert (F_ = F) as ->.
  { apply (gnormal_req (lexS vo) (mok vo) sm K M1 HK); [exact N_|apply G|]. rewrite X_. change (MonoStruct.graw sm [(mono1, 1)]) with (r1 K). ring. }
  destruct f as [|f']; [discriminate|]. cbn [squarefreefactorize is_number obind] in E.
  change (is_number [(mono1, 1)]) with true in E. cbn iota in E. cbn [obind] in E.
  cbn [sqf_loop] in E. destruct (poly_gcd _ _ _ _ _ _ _ _ _ _ _ F _) as [F1| | |] eqn:E1; try discriminate. cbn [obind] in E.
  destruct (gcdd_spec vo Hvo _ _ _ _ _ _ _ _ Env _ _ _ _ G Ne E1) as (G1 & Ne1 & I1). fold x in I1.
  assert (SP : sqfree (graw F)).
  { intros h Hh. destruct (S h Hh) as [k Ek]. apply P; [intros m Hm; rewrite (Ek m) in Hm; exact (vfree_const K _ k m Hm)|].
    apply (rd_trans K HD _ (rmul K h h)); [exists h; reflexivity|exact Hh]. }
  pose proof (sqf_conv K HD HG Z_char0 Z_unit_dec x (graw F) P (proj1 (nz_iff vo Hvo K HD F (proj1 G)) Ne) (graw F1) I1 SP) as U1. apply unit_spec in U1 as (k & Ek & _).
  rewrite (number_of_const vo Hvo F1 k (proj1 G1) Ek) in E. cbn in E. injection E as <-. reflexivity.
Qed.

(** ** the content of a univariate polynomial with at least two terms is not negative *)
Lemma gcd_pos f pa (a b : mono * Z) c : gcd f pa [a] [b] = Ok c -> exists m k, c = [(m, k)] /\ 0 <= k.
Proof.
  intros E. destruct f as [|f]; [discriminate|]. cbn [poly_gcd orb app] in E. injection E as <-.
  eexists _, _. split; [reflexivity|apply Z.gcd_nonneg].
Qed.
Definition below (v : var) (d : Z) (F : poly) : Prop := Forall (fun t => md (fst t) = [] \/ exists e, md (fst t) = [(v, e)] /\ 0 < e) F /\
  StronglySorted (fun a b => b < a) (d :: map (fun t => deg_first v (fst t)) F).
Lemma cont_go_pos g v deg : (forall k a b c, g k [a] [b] = Ok c -> exists m k', c = [(m, k')] /\ 0 <= k') ->
  forall F d a b c, d <> deg -> 0 <= d -> d < deg -> below v d F -> cont_go g v deg d [a] [b] F = Ok c -> exists m k, c = [(m, k)] /\ 0 <= k.
Proof.
  intros Hg. induction F as [|t F IH]; intros d a b c Nd P0 Ld [B1 B2] E; cbn [cont_go] in E.
  - destruct (Z.eqb_spec d deg); [contradiction|]. apply (Hg _ _ _ _ E).
  - cbn [map] in B2. pose proof (StronglySorted_inv B2) as [B3 B4]. apply Forall_inv in B4. cbn beta in B4. apply Forall_inv in B1 as Bt. cbn beta in Bt. apply Forall_inv_tail in B1.
    assert (P1 : 0 <= deg_first v (fst t)).
    { unfold deg_first. destruct Bt as [-> |(e & -> & Pe)]; [lia|]. rewrite N.eqb_refl. lia. }
    assert (Sg : same_group v d (fst t) = false).
    { unfold same_group, deg_first in *. destruct Bt as [Bt|(e & Bt & Pe)]; rewrite Bt in B4 |- *; [apply Z.eqb_neq; lia|]. rewrite N.eqb_refl in B4. rewrite N.eqb_refl. cbn [negb andb orb].
      rewrite orb_false_r. apply Z.eqb_neq. lia. }
    rewrite Sg in E. destruct (Z.eqb_spec d deg); [contradiction|]. destruct (g _ [b] [a]) as [c1| | |] eqn:Eg; cbn [obind] in E; try discriminate.
    destruct (Hg _ _ _ _ Eg) as (m & k & -> & _). apply IH in E; auto; [lia|lia|]. split; assumption.
Qed.
Lemma umono_md v e : 0 <= e -> (e = 0 /\ md (umono v e) = []) \/ (0 < e /\ md (umono v e) = [(v, e)]).
Proof. intros H. unfold umono. destruct (Z.gtb_spec e 0); [right|left]; (split; [lia|reflexivity]). Qed.
Lemma umono_first v e : 0 <= e -> deg_first v (umono v e) = e.
Proof. intros H. unfold deg_first. destruct (umono_md v e H) as [[-> ->]|[_ ->]]; [reflexivity|]. rewrite N.eqb_refl. reflexivity. Qed.
Lemma below_upoly v (r : list (Z * Z)) d : Forall (fun t => 0 <= fst t) r -> StronglySorted (fun a b => b < a) (d :: map fst r) -> below v d (of_upoly v r).
Proof.
  intros P B. unfold below, of_upoly. split.
  - rewrite Forall_map. eapply Forall_impl; [|exact P]. intros t Ht. cbn [fst]. destruct (umono_md v (fst t) Ht) as [[_ H]|[L H]]; rewrite H; [left; reflexivity|right; eauto].
  - rewrite map_map. cbn [fst]. rewrite (map_ext_in _ fst); [exact B|]. intros t Ht. rewrite Forall_forall in P. apply umono_first, P, Ht.
Qed.
Lemma ucont_pos v t1 t2 (r : list (Z * Z)) f pa c : v <> 0%N -> normal uok (m_gt uniS) K (t1 :: t2 :: r) ->
  cont f pa (of_upoly v (t1 :: t2 :: r)) = Ok c -> exists m k, c = [(m, k)] /\ 0 <= k.
Proof.
  intros Nv N E. unfold poly_cont, cont_with in E. destruct N as (A & D & _).
  assert (P : Forall (fun t : Z * Z => 0 <= fst t) (t1 :: t2 :: r)) by exact A.
  assert (B : StronglySorted (fun a b => b < a) (map fst (t1 :: t2 :: r))).
  { unfold desc in D. revert D. generalize (map fst (t1 :: t2 :: r)). intros l D. induction D as [|a l D IH Fa]; constructor; auto.
    eapply Forall_impl; [|exact Fa]. intros b Hb. cbn [m_gt uniS] in Hb. lia. }
  pose proof (Forall_inv P) as P1. pose proof (Forall_inv (Forall_inv_tail P)) as P2. cbn beta in P1, P2.
  cbn [map] in B. pose proof (StronglySorted_inv B) as [B2 B1]. apply Forall_inv in B1.
  destruct t1 as [e1 c1], t2 as [e2 c2]. cbn [fst snd] in *. cbn [of_upoly map fst snd] in E. fold (@of_upoly Z v r) in E.
  destruct (umono_md v e1 P1) as [[H _]|[L1 M_1]]; [lia|].
  assert (F1 : first_var ((umono v e1, c1) :: (umono v e2, c2) :: of_upoly v r) = v) by (cbn [first_var fst]; unfold mfirst_var; rewrite M_1; reflexivity).
  assert (F2 : first_deg ((umono v e1, c1) :: (umono v e2, c2) :: of_upoly v r) = e1) by (cbn [first_deg fst]; unfold mfirst_deg; rewrite M_1; reflexivity).
  rewrite F1, F2 in E. cbn [cont_go fst snd] in E.
  assert (S1 : same_group v e1 (umono v e1) = true) by (unfold same_group; rewrite M_1, N.eqb_refl, Z.eqb_refl; reflexivity).
  assert (S2 : same_group v e1 (umono v e2) = false).
  { unfold same_group. destruct (umono_md v e2 P2) as [[-> ->]|[_ ->]]; [apply Z.eqb_neq; lia|]. rewrite N.eqb_refl. cbn [negb andb orb]. rewrite orb_false_r. apply Z.eqb_neq. lia. }
  rewrite S1, S2, Z.eqb_refl in E. cbn [app obind] in E. rewrite (umono_first v e2 P2) in E.
  eapply cont_go_pos; [| | | | |exact E]; [intros k a b c0 Hg; apply (gcd_pos _ _ _ _ _ Hg)|lia|lia|lia|].
  apply below_upoly; [apply (Forall_inv_tail (Forall_inv_tail P))|exact B2].
Qed.
End FS.
