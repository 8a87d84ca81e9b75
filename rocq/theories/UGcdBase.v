(** * Facts on univariate polynomials in normal form, seen as polynomials in the variable 0. *)
From Coq Require Import Ring_theory Ring Setoid Morphisms Sorting.Sorted.
From Verif Require Import Prelude Coef Spec SpecProofs SpecOps SpecOpsProofs GcdDom GcdPoly GcdMath OrderSpec PairVec PairVecProofs
  Mono MonoStruct MonoStructProofs Heap Poly PolyMulProofs Div PolyDivProofs PolyOps PolyOpsGen GcdHom GcdRep.
Local Open Scope Z_scope.

Section UB.
Context {C : Type} (K : coefs C) (HD : domain_ok K) (HG : cgcd_ok K).
Let HK : ring_ok K := domain_ring K HD.
Local Existing Instance HK.
Add Ring Rring : (rring K HK) (setoid (req_equiv K) (rring_ext K HK)).
Notation S := uniS.
Notation norm := (normal uok (m_gt uniS) K).
Notation graw := (graw usm).
Notation up := (list (Z * C)).
Notation "a == b" := (req K a b) (at level 70).
Notation "a %| b" := (rdivides K a b) (at level 70).

Lemma unin (p : up) t : norm p -> In t p -> 0 <= fst t /\ snd t <> c0 K.
Proof. intros N H. apply (norm_in S uok K p t N H). Qed.
Lemma unz (p : up) : norm p -> (p <> [] <-> ~ graw p == r0).
Proof.
  intros N. split; intros H E; apply H.
  - apply (graw_nil_req S uok usm K uniS_ok HK p N E).
  - rewrite E. reflexivity.
Qed.
Lemma uin_coef (p : up) t : norm p -> In t p -> coef K (graw p) (usm (fst t)) = snd t.
Proof. intros N H. apply (in_coef S uok usm K uniS_ok HK p t (proj1 N) (proj1 (proj2 N)) H). Qed.
Lemma usupp (p : up) m : norm p -> coef K (graw p) m <> c0 K -> exists t, In t p /\ meq (usm (fst t)) m.
Proof. intros N H. apply (norm_supp S uok usm K uniS_ok HK p m N) in H as (t & Ht & E). exists t. auto. Qed.
Lemma uinV (p : up) : inV K [0%N] (graw p).
Proof.
  intros m v H Hv. destruct (coef_supp K _ _ H) as (m' & Im & E). apply in_map_iff in Im as (t & <- & It).
  unfold MonoStruct.graw in It. apply in_map_iff in It as (u & <- & Hu). cbn [fst] in E.
  rewrite <- (E v), exp_usm in Hv. destruct (N.eqb_spec 0 v) as [<-|]; [left; reflexivity|congruence].
Qed.
Lemma uhead_lt (t : Z * C) (r : up) u : norm (t :: r) -> In u r -> 0 <= fst u < fst t.
Proof.
  intros (A & D & _) H. unfold all_ok in A. rewrite Forall_forall in A. pose proof (A u (or_intror H)) as Ou. unfold uok in Ou.
  unfold desc in D. cbn [map] in D. apply StronglySorted_inv in D as [_ D]. rewrite Forall_forall in D.
  specialize (D (fst u) (in_map fst _ _ H)). cbn [uniS m_gt] in D. apply Z.gtb_lt in D. lia.
Qed.
Lemma udeg_is (t : Z * C) (r : up) : norm (t :: r) -> deg_is K (graw (t :: r)) 0%N (Z.to_N (fst t)).
Proof.
  intros N. split.
  - intros m H. apply (usupp _ m N) in H as (u & Hu & E). rewrite <- (E 0%N), exp_usm. cbn [N.eqb].
    destruct Hu as [<-|Hu]; [lia|]. pose proof (uhead_lt t r u N Hu). lia.
  - right. exists (usm (fst t)). rewrite (uin_coef _ t N (or_introl eq_refl)), exp_usm. cbn [N.eqb]. split; [|reflexivity].
    apply (unin _ t N (or_introl eq_refl)).
Qed.
Lemma unorm_tl (t : Z * C) (r : up) : norm (t :: r) -> norm r.
Proof.
  intros (A & D & Z0). split; [apply (Forall_inv_tail A)|]. split; [|apply (Forall_inv_tail Z0)].
  unfold desc in *. cbn [map] in D. apply StronglySorted_inv in D. apply D.
Qed.

(** polynomials in the variable 0 are univariate polynomials *)
Definition only0 (m : smono) : bool := forallb (fun vt => N.eqb (fst vt) 0 || N.eqb (exp m (fst vt)) 0) m.
Lemma exp_notin m v : ~ In v (map fst m) -> exp m v = 0%N.
Proof.
  induction m as [|[w e] m IH]; intros H; [reflexivity|]. cbn [exp map fst In] in *. rewrite IH by tauto.
  destruct (N.eqb_spec w v); [tauto|reflexivity].
Qed.
Lemma only0_spec m : only0 m = true <-> forall v, v <> 0%N -> exp m v = 0%N.
Proof.
  unfold only0. rewrite forallb_forall. split.
  - intros H v Hv. destruct (in_dec N.eq_dec v (map fst m)) as [I|I]; [|apply exp_notin, I].
    apply in_map_iff in I as (t & <- & Ht). specialize (H t Ht). apply orb_true_iff in H as [H|H]; apply N.eqb_eq in H; [contradiction|exact H].
  - intros H t Ht. destruct (N.eqb_spec (fst t) 0) as [|n]; [reflexivity|]. cbn [orb]. apply N.eqb_eq, H, n.
Qed.
Lemma filter_only0 (q : rpoly C) : inV K [0%N] q -> filter (fun t => only0 (fst t)) q == q.
Proof.
  intros H m. destruct (only0 m) eqn:Em.
  - clear H. induction q as [|[m' c] q IH]; [reflexivity|]. cbn [filter fst].
    destruct (only0 m') eqn:E'; cbn [Spec.coef]; rewrite IH; [reflexivity|].
    destruct (meqb_spec m' m) as [e|]; [|reflexivity]. exfalso. apply not_true_iff_false in E'. apply E'.
    apply only0_spec. intros v Hv. rewrite (e v). exact (proj1 (only0_spec m) Em v Hv).
  - assert (E1 : coef K q m = c0 K).
    { destruct (c0_dec K HK (coef K q m)) as [E|N]; [exact E|]. exfalso. apply not_true_iff_false in Em. apply Em. apply only0_spec.
      intros v Hv. destruct (N.eq_dec (exp m v) 0) as [e|e]; [exact e|]. destruct (H m v N e) as [X|[]]. congruence. }
    rewrite E1. clear E1 H. induction q as [|[m' c] q IH]; [reflexivity|]. cbn [filter fst].
    destruct (only0 m') eqn:E'; [|exact IH]. cbn [Spec.coef]. destruct (meqb_spec m' m) as [e|]; [|exact IH].
    exfalso. apply not_true_iff_false in Em. apply Em. apply only0_spec. intros v Hv. rewrite <- (e v). exact (proj1 (only0_spec m') E' v Hv).
Qed.
Lemma urepresent (q : rpoly C) : inV K [0%N] q -> exists H, norm H /\ graw H == q.
Proof.
  intros V. pose proof (filter_only0 q V) as E.
  assert (F : Forall (fun t => exists m, uok m /\ meq (usm m) (fst t)) (filter (fun t => only0 (fst t)) q)).
  { apply Forall_forall. intros t Ht. apply filter_In in Ht as [_ Ht]. apply full_uni. apply only0_spec, Ht. }
  assert (X : exists H, norm H /\ graw H == filter (fun t => only0 (fst t)) q); [|destruct X as (H & NH & EH); exists H; split; [exact NH|rewrite EH; exact E]].
  clear E V. induction F as [|[s c] q' (m & Om & Em) F (H & NH & EH)]; [exists []; split; [split; [constructor|split; constructor]|reflexivity]|].
  cbn [fst] in Em. destruct (c0_dec K HK c) as [->|Hc].
  - exists H. split; [exact NH|]. rewrite EH. intros x. cbn [Spec.coef]. destruct (meqb s x); [|reflexivity].
    symmetry. pose proof (ring_laws K HK) as R. apply (Radd_0_l R).
  - exists (p_add S K [(m, c)] H). split.
    + apply (p_add_normal S uok usm K uniS_ok HK); [|exact NH]. split; [repeat constructor; exact Om|]. split; [repeat constructor|repeat constructor; exact Hc].
    + rewrite (p_add_req S uok usm K uniS_ok HK), EH. change ((s, c) :: q') with (radd [(s, c)] q'). apply (radd_proper K HK); [|reflexivity].
      apply (req_single K); [exact Em|reflexivity].
Qed.
Lemma udvd_rep (F : up) D : norm F -> F <> [] -> D %| graw F -> exists D', norm D' /\ D' <> [] /\ graw D' == D.
Proof.
  intros N Ne [q E]. assert (Nz : ~ graw F == r0) by (apply unz; assumption).
  destruct (urepresent D) as (D' & ND & ED); [apply (inV_div K HD HG _ (graw F) q D E Nz), uinV|].
  exists D'. split; [exact ND|]. split; [|exact ED]. intros ->. apply Nz. rewrite E, <- ED. cbn [MonoStruct.graw map]. 
  change (@nil (smono * C)) with (@r0 C). ring.
Qed.
Lemma uquo_rep (F G : up) : norm F -> norm G -> G <> [] -> graw G %| graw F -> exists H, norm H /\ graw F == rmul K (graw H) (graw G).
Proof.
  intros NF NG Gne [q E]. destruct F as [|t F0].
  - exists []. split; [split; [constructor|split; constructor]|]. cbn [MonoStruct.graw map Spec.rmul flat_map]. reflexivity.
  - assert (Nz : ~ graw (t :: F0) == r0) by (apply unz; [exact NF|discriminate]).
    destruct (urepresent q) as (H & NH & EH); [apply (inV_div' K HD HG _ _ q (graw G) E Nz), uinV|]. exists H. split; [exact NH|]. rewrite EH. exact E.
Qed.

Context (HQ : quorem_ok K).
Lemma updiv_ok comp f (F G H : up) : norm F -> norm G -> G <> [] -> graw G %| graw F -> dcomp_good S uok usm K comp F G ->
  pair_vec_div (m_gt S) (m_eq S) (m_mul S) (m_div S) K f comp F G = Ok H -> norm H /\ graw F == rmul K (graw H) (graw G).
Proof.
  intros NF NG Gne Dv HC E. destruct (uquo_rep F G NF NG Gne Dv) as (H' & NH & R).
  pose proof (p_div_exact S uok usm K uniS_ok HK HD HQ comp F G H' HC NF NG NH Gne R) as T.
  assert (H = H') as ->; [|auto].
  apply (fuel_agree (fun f => pair_vec_div (m_gt S) (m_eq S) (m_mul S) (m_div S) K f comp F G) f); [apply pair_vec_div_mono|exact E|exact T].
Qed.
End UB.
