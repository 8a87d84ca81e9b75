(** * Every specification polynomial is the value of a polynomial in normal form; exact division. *)
From Coq Require Import Ring_theory Ring Setoid Morphisms.
From Verif Require Import Prelude Coef Spec SpecProofs SpecOps SpecOpsProofs OrderSpec PairVec PairVecProofs
  Mono MonoProofs MonoStruct MonoStructProofs Heap Poly PolyMulProofs Div PolyDivProofs PolyOps MonoOpsProofs PolyOpsGen PolyOpsProofs GcdHom.
Local Open Scope Z_scope.

Section Rep.
Context {M : Type} (S : monos M) (ok : M -> Prop) (sm : M -> smono) (HS : monos_ok S ok sm).
Context {C : Type} (K : coefs C) (HD : domain_ok K) (HQ : quorem_ok K).
Let HK : ring_ok K := domain_ring K HD.
Local Existing Instance HK.
Add Ring Rring : (rring K HK) (setoid (req_equiv K) (rring_ext K HK)).
Notation gt := (m_gt S).
Notation norm := (normal ok gt K).
Notation graw := (graw sm).
Notation poly := (list (M * C)).
Notation "a == b" := (req K a b) (at level 70).
Notation "a %| b" := (rdivides K a b) (at level 70).
(** every exponent vector is that of a monomial *)
Hypothesis full : forall s, exists m, ok m /\ meq (sm m) s.

Lemma represent (q : rpoly C) : exists H, norm H /\ graw H == q.
Proof.
  induction q as [|[s c] q (H & NH & EH)]; [exists []; split; [split; [constructor|split; constructor]|reflexivity]|].
  destruct (full s) as (m & Om & Em). destruct (c0_dec K HK c) as [->|Hc].
  - exists H. split; [exact NH|]. rewrite EH. intros x. cbn [Spec.coef]. destruct (meqb s x); [|reflexivity].
    symmetry. pose proof (ring_laws K HK) as R. apply (Radd_0_l R).
  - exists (p_add S K [(m, c)] H). split.
    + apply (p_add_normal S ok sm K HS HK); [|exact NH]. split; [repeat constructor; exact Om|]. split; [repeat constructor|repeat constructor; exact Hc].
    + rewrite (p_add_req S ok sm K HS HK), EH. change ((s, c) :: q) with (radd [(s, c)] q). apply (radd_proper K HK); [|reflexivity].
      apply (req_single K); [exact Em|reflexivity].
Qed.

Lemma pdiv_ok comp f (F G H : poly) : norm F -> norm G -> G <> [] -> graw G %| graw F -> dcomp_good S ok sm K comp F G ->
  pair_vec_div gt (m_eq S) (m_mul S) (m_div S) K f comp F G = Ok H -> norm H /\ graw F == rmul K (graw H) (graw G).
Proof.
  intros NF NG Gne [q Hq] HC E. destruct (represent q) as (H' & NH & EH).
  assert (R : graw F == rmul K (graw H') (graw G)) by (rewrite EH; exact Hq).
  pose proof (p_div_exact S ok sm K HS HK HD HQ comp F G H' HC NF NG NH Gne R) as T.
  assert (H = H') as ->; [|auto].
  apply (fuel_agree (fun f => pair_vec_div gt (m_eq S) (m_mul S) (m_div S) K f comp F G) f); [apply pair_vec_div_mono|exact E|exact T].
Qed.
Lemma pdivtest_ok comp f (F G Q R : poly) : norm F -> norm G -> G <> [] -> dtcomp_good S ok sm K comp F G ->
  pair_vec_div_rem gt (m_eq S) (m_mul S) (m_div S) K f comp F G = Ok (Q, R) -> divtest_ok S ok sm K F G Q R.
Proof.
  intros NF NG Gne HC E.
  destruct (p_div_test S ok sm K HS HK HD HQ comp F G HC NF NG Gne) as (Q' & R' & X & T).
  assert (Y : (Q, R) = (Q', R')); [|injection Y as -> ->; exact X].
  apply (fuel_agree (fun f => pair_vec_div_rem gt (m_eq S) (m_mul S) (m_div S) K f comp F G) f); [apply pair_vec_div_rem_mono|exact E|exact T].
Qed.
Lemma pdivtest_dvd comp f (F G Q : poly) : norm F -> norm G -> G <> [] -> dtcomp_good S ok sm K comp F G ->
  pair_vec_div_rem gt (m_eq S) (m_mul S) (m_div S) K f comp F G = Ok (Q, []) -> norm Q /\ graw F == rmul K (graw Q) (graw G).
Proof. intros NF NG Gne HC E. apply (pdivtest_ok comp f F G Q [] NF NG Gne HC E). reflexivity. Qed.
Lemma pdivtest_quo comp f (F G Q R : poly) : norm F -> norm G -> G <> [] -> graw G %| graw F -> dtcomp_good S ok sm K comp F G ->
  pair_vec_div_rem gt (m_eq S) (m_mul S) (m_div S) K f comp F G = Ok (Q, R) -> norm Q /\ R = [] /\ graw F == rmul K (graw Q) (graw G).
Proof.
  intros NF NG Gne [q Hq] HC E. destruct (represent q) as (H' & NH & EH).
  assert (X : graw F == rmul K (graw H') (graw G)) by (rewrite EH; exact Hq).
  destruct (pdivtest_ok comp f F G Q R NF NG Gne HC E) as [_ U]. destruct (U H' NH X) as [-> ->]. auto.
Qed.
End Rep.

Section Full.
Context (vo : vorder) (Hvo : vorder_ok vo).
Lemma full_mono s : exists m, mok vo m /\ meq (sm m) s.
Proof.
  induction s as [|[v e] s (m & Om & Em)]; [exists mono1; split; [apply mok_1|intros w; reflexivity]|].
  destruct (umono_spec vo v (Z.of_N e)) as [Ou Eu]; [lia|]. exists (mono_mul vo (umono v (Z.of_N e)) m).
  pose proof (lexS_ok vo Hvo) as M1. split; [apply (ms_mul_ok _ _ _ M1 _ _ Ou Om)|]. intros w.
  change (mono_mul vo (umono v (Z.of_N e)) m) with (m_mul (lexS vo) (umono v (Z.of_N e)) m).
  rewrite (ms_mul _ _ _ M1 _ _ Ou Om w), exp_app, (Em w). cbn [exp]. rewrite (exp_sm_mok vo _ w Ou), (Eu w).
  destruct (N.eqb_spec w v), (N.eqb_spec v w); try congruence; lia.
Qed.
End Full.
Lemma full_uni (s : smono) : (forall v, v <> 0%N -> exp s v = 0%N) -> exists m, uok m /\ meq (usm m) s.
Proof.
  intros H. exists (Z.of_N (exp s 0)). split; [unfold uok; lia|]. intros w. unfold usm. cbn [exp]. rewrite N2Z.id.
  destruct (N.eqb_spec 0 w) as [<-|n]; [lia|]. rewrite H by congruence. reflexivity.
Qed.
