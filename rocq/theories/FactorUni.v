(** * The univariate factors recombined by Zassenhaus and van Hoeij multiply to the polynomial, up to sign (Factor.v). *)
From Coq Require Import Ring_theory Ring Setoid Morphisms Znumtheory Sorting.Sorted Permutation.
From Verif Require Import Prelude Coef Spec SpecProofs SpecOps SpecOpsProofs GcdDom GcdPoly GcdMath OrderSpec PairVec PairVecProofs
  Mono MonoStruct MonoStructProofs Heap Poly PolyMulProofs Div PolyDivProofs PolyOps PolyOpsGen ConvertProofs Gcd GcdTerm UGcd UGcdBase UGcdProofs Factor FactorBase.
Local Open Scope Z_scope.

Local Notation K := Zc.
Local Instance HK : ring_ok K := domain_ring K Zc_domain.
Local Notation HD := Zc_domain.
Local Notation HG := Z_cgcd.
Add Ring Rring : (rring K HK) (setoid (req_equiv K) (rring_ext K HK)).
Local Notation norm := (normal uok (m_gt uniS) K).
Local Notation graw := (graw usm).
Local Notation ufine := (fine uniS uok).
Local Notation uprod := (lprod usm).
Local Notation "a == b" := (req K a b) (at level 70).
Local Notation "a %| b" := (rdivides K a b) (at level 70).
Local Notation prim f := (is_prim K 0%N (graw f)).

(** ** the primitive part *)
Lemma uprim_ok (f : upz) : ufine f -> exists c p, uprim f = (c, p) /\ c <> 0 /\ ufine p /\ graw f == rmul K (graw p) (rconst c) /\ prim p /\ udeg p = udeg f /\
  map fst p = map fst f.
Proof.
  intros [N H]. destruct f as [|t r]; [congruence|]. unfold uprim. set (f := t :: r) in *. set (c := if snd t <? 0 then - ucont f else ucont f).
  pose proof (ucont_nz f N H) as Nu. destruct (ucont_spec f H) as [Dv _].
  assert (Nc : c <> 0) by (unfold c; destruct (snd t <? 0); lia).
  assert (Dc : forall u, In u f -> (c | snd u)).
  { intros u Hu. specialize (Dv u Hu). unfold c. destruct (snd t <? 0); [apply Z.divide_opp_l, Dv|exact Dv]. }
  destruct (uquot_ok f c N Nc Dc) as (Np & Ep & _). exists c, (map (fun t => (fst t, Z.quot (snd t) c)) f).
  split; [reflexivity|]. split; [exact Nc|]. split; [split; [exact Np|discriminate]|]. split; [exact Ep|]. split.
  - assert (Cc : is_cont K 0%N (graw f) (rconst c)).
    { destruct (ucont_ok f N H) as (A & B & C). split; [apply (vfree_const K)|]. split; [apply const_dvd; assumption|].
      intros d Fd Dd. apply (rd_trans K HD d (rconst (ucont f))); [apply C; assumption|]. unfold c. destruct (snd t <? 0); [|apply (rd_refl K HD)].
      exists (rconst (-1)). rewrite (rconst_mul K). cbn [cmul Zc]. replace (-1 * - ucont f) with (ucont f) by lia. reflexivity. }
    apply (pp_prim K HD HG 0%N (graw f) (rconst c)); [apply (unz K HD); assumption|exact Cc|exact Ep].
  - split; [reflexivity|]. rewrite map_map. reflexivity.
Qed.
Lemma uprim_fine f c p : ufine f -> uprim f = (c, p) -> c <> 0 /\ ufine p /\ graw f == rmul K (graw p) (rconst c) /\ prim p.
Proof. intros H E. destruct (uprim_ok f H) as (c' & p' & E' & A & B & C & D & _). rewrite E in E'. injection E' as -> ->. auto. Qed.

(** a constant dividing a primitive polynomial is 1 or -1 *)
Lemma unit_const c : rconst c %| r1 K -> c = 1 \/ c = -1.
Proof.
  intros [q E]. assert (X : rmul K q (rconst c) == rconst 1) by (rewrite <- E; reflexivity).
  destruct (divisor_const K HD HG 1 (rconst c) q ltac:(discriminate) X) as [_ H]. cbn [cmul Zc] in H.
  assert (Ec : coef K (rconst c) [] = c) by (cbn; destruct c; reflexivity). rewrite Ec in H.
  apply Z.divide_1_r. exists (coef K q []). exact H.
Qed.
Lemma const_prim c f : prim f -> rconst c %| graw f -> c = 1 \/ c = -1.
Proof. intros P D. apply unit_const, P; [apply (vfree_const K)|exact D]. Qed.
Lemma prim_dvd_l a b f : prim f -> graw f == rmul K (graw a) b -> prim a.
Proof. intros P E. apply (prim_of_dvd K HD 0%N (graw f)); [exact P|]. exists b. rewrite E. ring. Qed.
Lemma prim_pm a f : prim f -> pm a (graw f) -> is_prim K 0%N a.
Proof.
  intros P [E|E] d Fd [q Eq]; apply P; auto; [exists q; rewrite <- E; exact Eq|]. exists (ropp K q).
  transitivity (ropp K (ropp K (graw f))); [ring|]. rewrite <- E, Eq. ring.
Qed.

(** ** the candidates *)
Lemma mod_norm phi (p : upz) : norm p -> norm (p_mod K phi p).
Proof.
  intros N. unfold p_mod. rewrite (flat_map_if' (fun t : Z * Z => is0 K (phi (snd t))) (fun t => (fst t, phi (snd t)))).
  pose proof (norm_filter uniS uok K (fun t => negb (is0 K (phi (snd t)))) p N) as Nf.
  split; [|split].
  - unfold all_ok. rewrite Forall_map. cbn [fst]. apply Nf.
  - unfold desc. rewrite map_map. cbn [fst]. apply Nf.
  - unfold nonzero. rewrite Forall_map, Forall_forall. intros t Ht. cbn [snd]. apply filter_In in Ht as [_ Ht].
    destruct (is0_spec K HK (phi (snd t))) as [|n]; [discriminate|exact n].
Qed.
Lemma usubset_norm m (l : list upz) : forall (p r : upz), norm p -> Forall (norm) l -> usubset m p l = Ok r -> norm r.
Proof.
  induction l as [|h l IH]; intros p r Np Nl E; cbn [usubset] in E; [injection E as <-; apply mod_norm, Np|].
  destruct (umul p h) as [P| | |] eqn:Em; cbn [obind] in E; try discriminate. inversion Nl; subst.
  apply IH in E; [exact E|apply mod_norm, (umul_ok _ _ _ Np H1 Em)|assumption].
Qed.
Lemma ulc_ok f c : ulc f = Ok c -> norm f -> norm [(0, c)].
Proof. intros E N. destruct f as [|t r]; [discriminate|]. injection E as <-. apply const_norm. apply (unin K _ t N). left; reflexivity. Qed.
Lemma pick_in {A} (T : list A) idx : forall l, pick T idx = Ok l -> incl l T.
Proof.
  induction idx as [|i idx IH]; intros l E; cbn [pick] in E; [injection E as <-; intros x []|].
  destruct (nth_error T i) as [a|] eqn:Ei; [|discriminate]. destruct (pick T idx) as [l'| | |] eqn:El; cbn [obind] in E; try discriminate.
  injection E as <-. intros x [<-|Hx]; [eapply nth_error_In, Ei|apply (IH l' eq_refl x Hx)].
Qed.
Lemma pick_forall {A} (P : A -> Prop) (T : list A) idx l : pick T idx = Ok l -> Forall P T -> Forall P l.
Proof. intros E F. apply pick_in in E. rewrite Forall_forall in *. auto. Qed.
Lemma erase_forall {A} (P : A -> Prop) (T : list A) idx : Forall P T -> Forall P (erase idx T).
Proof.
  unfold erase. generalize 0%nat. induction T as [|a T IH]; intros k F; cbn [erase_from]; [constructor|]. inversion F; subst.
  destruct (existsb _ _); [apply IH; assumption|constructor; [assumption|apply IH; assumption]].
Qed.

(** ** one trial division *)
Definition split_of (f g q : upz) : Prop := ufine g /\ ufine q /\ prim g /\ prim q /\ pm (rmul K (graw g) (graw q)) (graw f).
Lemma utrial_ok fuel (f g h q : upz) : ufine f -> prim f -> norm g -> utrial fuel f g = Ok (Some (h, q)) -> split_of f h q.
Proof.
  intros Hf Pf Ng E. unfold utrial in E. destruct g as [|t g'].
  { cbn [uprim snd] in E. destruct (udivrem fuel f []) as [[a b]| | |] eqn:Ed; cbn [obind] in E; discriminate. }
  destruct (uprim (t :: g')) as [c pg] eqn:Eg. assert (Hg : ufine (t :: g')) by (split; [exact Ng|discriminate]).
  destruct (uprim_fine (t :: g') c pg Hg Eg) as (_ & [Np Hp] & _ & Pp).
  cbn [snd] in E. destruct (udivrem fuel f pg) as [[q0 r]| | |] eqn:Ed; cbn [obind] in E; try discriminate.
  destruct r; [|discriminate]. injection E as <- <-. destruct (udivrem_ok fuel f pg q0 (proj1 Hf) Np Hp Ed) as [Nq Eq].
  assert (Hq0 : ufine q0).
  { split; [exact Nq|]. intros ->. apply ((proj1 (unz K HD f (proj1 Hf))) (proj2 Hf)). exact Eq. }
  destruct (uprim q0) as [cq q1] eqn:Eq0. destruct (uprim_fine q0 cq q1 Hq0 Eq0) as (_ & Hq1 & Eq1 & Pq1). cbn [snd].
  assert (U : cq = 1 \/ cq = -1).
  { apply (const_prim cq f Pf). exists (rmul K (graw q1) (graw pg)). rewrite Eq, Eq1. ring. }
  split; [split; assumption|]. split; [exact Hq1|]. split; [exact Pp|]. split; [exact Pq1|].
  assert (X : graw f == rmul K (rmul K (graw pg) (graw q1)) (rconst cq)) by (rewrite Eq, Eq1; ring).
  rewrite X. apply pm_unit. destruct U as [-> | ->]; [left|right]; reflexivity.
Qed.

(** ** Zassenhaus *)
Lemma zass_scan_ok fuel : forall m (f : upz) (T : list upz) idx g q idx', ufine f -> prim f -> Forall norm T ->
  zass_scan fuel m f T idx = Ok (Some (g, q, idx')) -> split_of f g q.
Proof.
  induction fuel as [|fuel IH]; intros m f T idx g q idx' Hf Pf NT E; cbn [zass_scan] in E; [discriminate|].
  destruct (pick T idx) as [sel| | |] eqn:Ep; cbn [obind] in E; try discriminate.
  destruct (prune m f sel) as [skip| | |]; cbn [obind] in E; try discriminate.
  pose proof (pick_forall _ _ _ _ Ep NT) as Ns.
  destruct skip; cbn [obind] in E.
  - destruct (next_comb (length T) idx) as [i2|]; [|discriminate]. apply (IH _ _ _ _ _ _ _ Hf Pf NT E).
  - destruct (ulc f) as [lc| | |] eqn:El; cbn [obind] in E; try discriminate.
    destruct (usubset m [(0, lc)] sel) as [g0| | |] eqn:Eg; cbn [obind] in E; try discriminate.
    assert (Ng : norm g0) by (apply (usubset_norm m sel [(0, lc)]); auto; apply (ulc_ok f); auto; apply Hf).
    destruct (utrial fuel f g0) as [[[g1 q1]|]| | |] eqn:Et; cbn [obind] in E; try discriminate.
    + injection E as <- <- <-. apply (utrial_ok fuel f g0); assumption.
    + destruct (next_comb (length T) idx) as [i2|]; [|discriminate]. apply (IH _ _ _ _ _ _ _ Hf Pf NT E).
Qed.

Section Recombine.
Variable usort : list upz -> list upz.
Hypothesis Husort : forall l, Permutation l (usort l).
Variable o : foracle.
Hypothesis Hlift : forall f ph, Forall norm (fst (o_lift o f ph)).

(** the result [l] of a recombination started with [res] found and [f] left *)
Definition done (f : upz) (res l : list upz) : Prop := Forall ufine l /\ pm (uprod l) (rmul K (uprod res) (graw f)).
Lemma finish (f : upz) res : ufine f -> prim f -> Forall ufine res ->
  done f res (if (match f with [] => false | _ => true end) && (0 <? udeg f) then res ++ [f] else res).
Proof.
  intros [Nf Hf] Pf Fr. destruct f as [|t r]; [congruence|]. cbn [andb]. destruct (Z.ltb_spec 0 (udeg (t :: r))) as [L|L].
  - split; [apply Forall_app; split; [exact Fr|constructor; [split; assumption|constructor]]|]. apply pm_req. rewrite lprod_app. cbn [lprod fold_right]. ring.
  - split; [exact Fr|]. cbn [udeg] in L. assert (r = []) as ->.
    { destruct r as [|u r]; [reflexivity|]. pose proof (uhead_lt K t (u :: r) u Nf (or_introl eq_refl)). lia. }
    pose proof (unin K _ t Nf (or_introl eq_refl)) as [L0 _]. destruct t as [e c]. cbn [fst] in *. assert (e = 0) as -> by lia.
    rewrite const_graw. apply pm_unit. destruct (const_prim c _ Pf) as [-> | ->]; [exists (r1 K); rewrite const_graw; ring|left|right]; reflexivity.
Qed.
Lemma done_perm f res l l' : Permutation l l' -> done f res l -> done f res l'.
Proof.
  intros P [A B]. split; [apply (Permutation_Forall P A)|]. rewrite <- (lprod_perm usm _ _ P). exact B.
Qed.
Lemma done_step f g q res l : split_of f g q -> done q (res ++ [g]) l -> done f res l.
Proof.
  intros (_ & _ & _ & _ & Sp) [A B]. split; [exact A|]. eapply pm_trans; [exact B|]. rewrite lprod_app. cbn [lprod fold_right].
  assert (E : rmul K (rmul K (uprod res) (rmul K (graw g) (r1 K))) (graw q) == rmul K (uprod res) (rmul K (graw g) (graw q))) by ring.
  rewrite E. apply pm_mul; [apply pm_refl|exact Sp].
Qed.
Lemma zass_loop_ok fuel : forall m s (T : list upz) (f : upz) (res l : list upz), ufine f -> prim f -> Forall norm T -> Forall ufine res ->
  zass_loop usort fuel m s T f res = Ok l -> done f res l.
Proof.
  induction fuel as [|fuel IH]; intros m s T f res l Hf Pf NT Fr E; cbn [zass_loop] in E; [discriminate|].
  destruct (Nat.leb (2 * s) (length T)).
  - destruct (zass_scan fuel m f T (seq 0 s)) as [[[[g q] idx]|]| | |] eqn:Es; cbn [obind] in E; try discriminate.
    + pose proof (zass_scan_ok _ _ _ _ _ _ _ _ Hf Pf NT Es) as Sp. apply (done_step f g q); [exact Sp|].
      destruct Sp as (Hg & Hq & _ & Pq & _). apply (IH _ _ _ _ _ _ Hq Pq (erase_forall _ _ _ NT)) in E; [exact E|].
      apply Forall_app. split; [exact Fr|constructor; [exact Hg|constructor]].
    + apply (IH _ _ _ _ _ _ Hf Pf NT Fr E).
  - injection E as <-. apply (done_perm _ _ _ _ (Husort _)). apply finish; assumption.
Qed.
Lemma zassenhaus_ok fuel (f : upz) (T : list upz) m l : ufine f -> prim f -> Forall norm T -> zassenhaus usort fuel f T m = Ok l -> done f [] l.
Proof.
  intros Hf Pf NT E. unfold zassenhaus in E. destruct (Nat.leb (length T) 1).
  - injection E as <-. pose proof (finish f [] Hf Pf (Forall_nil _)) as H. destruct f as [|t r]; [destruct Hf; congruence|exact H].
  - apply (zass_loop_ok fuel m 1 T f [] l); auto.
Qed.
(** ** van Hoeij *)
Lemma vh_cands_ok fuel m (act : list upz) cands : forall (f : upz) (res : list upz) cs n f' res' cs', ufine f -> prim f -> Forall norm act -> Forall ufine res ->
  vh_cands fuel m act cands f res cs n = Ok (f', res', cs') ->
  ufine f' /\ prim f' /\ Forall ufine res' /\ forall l, done f' res' l -> done f res l.
Proof.
  induction cands as [|cand cands IH]; intros f res cs n f' res' cs' Hf Pf Na Fr E; cbn [vh_cands] in E.
  { injection E as <- <- <-. auto. }
  destruct (_ || _); [apply (IH _ _ _ _ _ _ _ Hf Pf Na Fr E)|].
  destruct (ulc f) as [lc| | |] eqn:El; cbn [obind] in E; try discriminate.
  destruct (pick act cand) as [sel| | |] eqn:Ep; cbn [obind] in E; try discriminate.
  destruct (usubset m [(0, lc)] sel) as [g0| | |] eqn:Eg; cbn [obind] in E; try discriminate.
  assert (Ng : norm g0).
  { apply (usubset_norm m sel [(0, lc)] g0); auto; [apply (ulc_ok f); auto; apply Hf|apply (pick_forall _ _ _ _ Ep Na)]. }
  destruct (utrial fuel f g0) as [[[g1 q1]|]| | |] eqn:Et; cbn [obind] in E; try discriminate; [|apply (IH _ _ _ _ _ _ _ Hf Pf Na Fr E)].
  pose proof (utrial_ok fuel f g0 g1 q1 Hf Pf Ng Et) as Sp. pose proof Sp as (Hg & Hq & _ & Pq & _).
  apply IH in E as (A & B & C & D); auto; [|apply Forall_app; split; [exact Fr|constructor; [exact Hg|constructor]]].
  split; [exact A|]. split; [exact B|]. split; [exact C|]. intros l Hl. apply (done_step f g1 q1); auto.
Qed.
Lemma vh_loop_ok fuel : forall ph f0 m J0 Jm rd (act : list upz) (f : upz) (res : list upz) J l, ufine f -> prim f -> Forall norm act -> Forall ufine res ->
  vh_loop usort o fuel ph f0 m J0 Jm rd act f res J = Ok l -> done f res l.
Proof.
  induction fuel as [|fuel IH]; intros ph f0 m J0 Jm rd act f res J l Hf Pf Na Fr E; cbn [vh_loop] in E; [discriminate|].
  destruct (Nat.leb (length act) 1).
  { injection E as <-. apply (done_perm _ _ _ _ (Husort _)). apply finish; assumption. }
  destruct (vh_cands fuel m act (o_cand o f0 ph rd) f res [] (length act)) as [[[f1 res1] cs]| | |] eqn:Ec; cbn [obind] in E; try discriminate.
  apply vh_cands_ok in Ec as (A & B & C & D); auto. apply D. destruct cs as [|c0 cs].
  - destruct (_ >? Jm).
    + destruct (zassenhaus usort fuel f1 act m) as [z| | |] eqn:Ez; cbn [obind] in E; try discriminate. injection E as <-.
      apply zassenhaus_ok in Ez as [Fz Pz]; auto. split; [apply Forall_app; auto|]. rewrite lprod_app. apply pm_mul; [apply pm_refl|].
      cbn [lprod fold_right] in Pz. assert (E1 : rmul K (r1 K) (graw f1) == graw f1) by ring. rewrite E1 in Pz. exact Pz.
    + apply (IH _ _ _ _ _ _ _ _ _ _ _ A B Na C E).
  - apply (IH _ _ _ _ _ _ _ _ _ _ _ A B (erase_forall _ _ _ Na) C E).
Qed.
Theorem factor_sp_ok fuel (f : upz) l : ufine f -> prim f -> factor_sp usort o fuel f = Ok l -> Forall ufine l /\ pm (uprod l) (graw f).
Proof.
  intros Hf Pf E. assert (V : forall ph L m l, Forall norm L -> vanhoeij usort o fuel ph f L m = Ok l -> Forall ufine l /\ pm (uprod l) (graw f)).
  { intros ph L m l' NL E'. unfold vanhoeij in E'. apply vh_loop_ok in E' as [A B]; auto. split; [exact A|]. cbn [lprod fold_right] in B.
    assert (E1 : rmul K (r1 K) (graw f) == graw f) by ring. rewrite E1 in B. exact B. }
  unfold factor_sp in E. destruct (o_select o f) as [irr n]. destruct (irr || Nat.leb n 1).
  - injection E as <-. split; [constructor; [exact Hf|constructor]|]. apply pm_req. cbn [lprod fold_right]. ring.
  - unfold lll_factorize in E. pose proof (Hlift f false) as L1. pose proof (Hlift f true) as L2.
    destruct (o_lift o f false) as [l1 m1]. destruct (vanhoeij usort o fuel false f l1 m1) as [res| | |] eqn:E1; cbn [obind] in E; try discriminate.
    destruct (_ && _).
    + destruct (o_lift o f true) as [l2 m2]. apply (V _ _ _ _ L2 E).
    + injection E as <-. apply (V _ _ _ _ L1 E1).
Qed.
End Recombine.
