(** * Proofs about the polynomial layer (PolyOps.v). *)
From Coq Require Import Ring Setoid Morphisms Sorting.Sorted Permutation.
From Verif Require Import Prelude Coef Spec SpecProofs SpecOps SpecOpsProofs OrderSpec PairVec PairVecProofs Mono MonoProofs
  MonoStruct MonoStructProofs Poly PolyMulProofs PolyOps MonoOpsProofs PolyOpsGen.
Local Open Scope Z_scope.

Section P.
Context (vo : vorder) (Hvo : vorder_ok vo) (S : monos mono) (HSS : S = lexS vo \/ S = grlexS vo).
Context {C : Type} (K : coefs C) (HK : ring_ok K).
Add Ring Kring : (ring_laws K HK).
Add Ring Rring : (rring K HK) (setoid (req_equiv K) (rring_ext K HK)).
Notation gt := (m_gt S).
Notation norm := (normal (mok vo) gt K).
Notation graw := (graw sm).
Notation poly := (poly C).

Lemma HS : monos_ok S (mok vo) sm.
Proof. destruct HSS as [->| ->]; [apply lexS_ok|apply grlexS_ok]; exact Hvo. Qed.
Lemma S_eq : m_eq S = mono_eqb. Proof. destruct HSS as [->| ->]; reflexivity. Qed.
Lemma S_mul : m_mul S = mono_mul vo. Proof. destruct HSS as [->| ->]; reflexivity. Qed.
Lemma S_one : m_one S = mono1. Proof. destruct HSS as [->| ->]; reflexivity. Qed.
Let HO := ms_order S (mok vo) sm HS.

(** ** adding a scalar *)
Lemma mempty_spec m : mok vo m -> (mempty m = true <-> m = mono1).
Proof.
  intros H. unfold mempty. destruct (md m) as [|t l] eqn:E.
  - split; [intros _|reflexivity]. apply (mok_eq vo); [exact H|apply mok_1|exact E].
  - split; [discriminate|]. intros ->. discriminate.
Qed.
Lemma sm_mono1 : sm mono1 = []. Proof. reflexivity. Qed.
Lemma add_scalar_spec p c : norm p -> p <> [] ->
  exists r, add_scalar K p c = Ok r /\ all_ok (mok vo) r /\ desc gt r /\ req K (graw r) (radd (graw p) (rconst c)) /\
   (c <> c0 K -> cadd K (coef K (graw p) []) c <> c0 K -> norm r) /\
   (forall (P : mono -> Prop), P mono1 -> Forall (fun t => P (fst t)) p -> Forall (fun t => P (fst t)) r).
Proof.
  induction p as [|t p IH]; [congruence|]. intros N _. pose proof N as N0.
  apply (normal_cons (mok vo) gt K) in N as (Ot & Zt & Gt & Np). destruct t as [m a]. cbn [fst snd] in *.
  destruct p as [|u p].
  - cbn [add_scalar]. eexists. split; [reflexivity|]. destruct (mempty m) eqn:E.
    + apply (mempty_spec m Ot) in E. subst m. split; [repeat constructor|]. split; [repeat constructor|].
      split.
      * intros s. unfold radd, rconst. rewrite (coef_app K HK). cbn [MonoStruct.graw map Spec.coef fst snd]. rewrite sm_mono1. destruct (meqb [] s); ring.
      * split.
        -- intros Hc Hz. split; [repeat constructor|]. split; [repeat constructor|]. constructor; [|constructor]. cbn [snd].
           intros E. apply Hz. rewrite <- E. cbn. ring.
        -- intros P HP H1. inversion H1; subst. repeat constructor. assumption.
    + assert (G : gt m mono1 = true).
      { rewrite <- S_one. apply (ms_gt_one S (mok vo) sm HS m Ot). rewrite S_one. intros ->. discriminate. }
      assert (Aok : all_ok (mok vo) [(m, a); (mono1, c)]) by (constructor; [exact Ot|constructor; [apply mok_1|constructor]]).
      assert (Ds : desc gt [(m, a); (mono1, c)]) by (repeat constructor; exact G).
      split; [exact Aok|]. split; [exact Ds|]. split.
      * intros s. unfold radd, rconst. rewrite (coef_app K HK). cbn [MonoStruct.graw map Spec.coef fst snd]. rewrite sm_mono1. destruct (meqb [] s), (meqb (sm m) s); ring.
      * split.
        -- intros Hc Hz. split; [exact Aok|]. split; [exact Ds|].
           repeat constructor; assumption.
        -- intros P HP H1. inversion H1; subst. repeat constructor; assumption.
  - destruct IH as (r & Er & Ok_ & D & R & Nr & Pr); [exact Np|discriminate|].
    change (add_scalar K ((m, a) :: u :: p) c) with (obind (add_scalar K (u :: p) c) (fun r' => Ok ((m, a) :: r'))).
    rewrite Er. cbn [obind]. eexists. split; [reflexivity|].
    assert (Gm : gt m mono1 = true).
    { rewrite <- S_one. apply (ms_gt_one S (mok vo) sm HS m Ot). rewrite S_one. intros ->.
      inversion Gt as [|? ? G1 _]; subst. destruct Np as (A & _). inversion A as [|? ? A1 _]; subst.
      destruct (mempty (fst u)) eqn:Eu.
      - apply (mempty_spec _ A1) in Eu. rewrite Eu in G1. rewrite (gt_irrefl _ _ HO) in G1; [discriminate|apply mok_1].
      - assert (X : gt (fst u) mono1 = true).
        { rewrite <- S_one. apply (ms_gt_one S (mok vo) sm HS _ A1). rewrite S_one. intros E0. rewrite E0 in Eu. discriminate. }
        rewrite (gt_asym _ _ HO (fst u) mono1 A1 (mok_1 vo) X) in G1. discriminate. }
    assert (Gr : Forall (fun t => gt m (fst t) = true) r) by (apply (Pr (fun x => gt m x = true)); assumption).
    split; [constructor; assumption|]. split; [apply (desc_cons gt); auto|]. split.
    + intros s. specialize (R s). unfold radd in *. rewrite !(coef_app K HK) in *.
      change (coef K (graw ((m, a) :: r)) s) with (if meqb (sm m) s then cadd K a (coef K (graw r) s) else coef K (graw r) s).
      change (coef K (graw ((m, a) :: u :: p)) s) with (if meqb (sm m) s then cadd K a (coef K (graw (u :: p)) s) else coef K (graw (u :: p)) s).
      rewrite R. destruct (meqb (sm m) s); ring.
    + split.
      * intros Hc Hz. apply (normal_cons (mok vo) gt K). split; [exact Ot|]. split; [exact Zt|]. split; [exact Gr|].
        apply Nr; [exact Hc|]. replace (coef K (graw (u :: p)) []) with (coef K (graw ((m, a) :: u :: p)) []); [exact Hz|].
        change (coef K (graw ((m, a) :: u :: p)) []) with (if meqb (sm m) [] then cadd K a (coef K (graw (u :: p)) []) else coef K (graw (u :: p)) []).
        destruct (meqb_spec (sm m) []) as [e|e]; [|reflexivity]. exfalso.
        assert (Em : m = mono1) by (apply (ms_inj S (mok vo) sm HS); [exact Ot|apply mok_1|exact e]).
        rewrite Em, (gt_irrefl _ _ HO) in Gm; [discriminate|apply mok_1].
      * intros P HP H1. inversion H1; subst. constructor; [assumption|]. apply Pr; assumption.
Qed.

(** ** adding a monomial *)
Lemma add_mono_spec p m one : norm p -> mok vo m -> one <> c0 K ->
  norm (add_mono K S p m one) /\ req K (graw (add_mono K S p m one)) (radd (graw p) [(sm m, one)]).
Proof.
  intros N Hm H1. unfold add_mono.
  assert (Ns : norm [(m, one)]) by (split; [constructor; [exact Hm|constructor]|split; [repeat constructor|repeat constructor; assumption]]).
  destruct (rev p) as [|t q] eqn:E.
  - assert (p = []) as -> by (rewrite <- (rev_involutive p), E; reflexivity). split; [exact Ns|reflexivity].
  - assert (Ep : p = rev q ++ [t]) by (rewrite <- (rev_involutive p), E; reflexivity).
    destruct (gt (fst t) m) eqn:G; cbn [negb].
    + split; [|rewrite (graw_app sm); reflexivity]. apply (norm_app S (mok vo) K). split; [exact N|]. split; [exact Ns|].
      apply Forall_forall. intros u Hu. constructor; [|constructor]. cbn [fst]. rewrite Ep in Hu, N.
      apply in_app_or in Hu as [Hu|[<-|[]]]; [|exact G].
      apply (norm_app S (mok vo) K) in N as (N1 & N2 & N3). rewrite Forall_forall in N3. specialize (N3 u Hu).
      inversion N3; subst. apply (gt_trans _ _ HO (fst u) (fst t) m); try assumption.
      * apply (norm_in S (mok vo) K _ u N1 Hu).
      * apply (norm_in S (mok vo) K _ t N2 (or_introl eq_refl)).
    + split; [apply (p_add_normal S (mok vo) sm K HS HK); assumption|apply (p_add_req S (mok vo) sm K HS HK)].
Qed.

(** ** degrees *)
Lemma max_deg_spec f (p : poly) : (forall t, In t p -> 0 <= f (fst t)) ->
  (forall t, In t p -> f (fst t) <= max_deg f p) /\ 0 <= max_deg f p /\
  (p <> [] -> exists t, In t p /\ f (fst t) = max_deg f p).
Proof.
  intros Hpos. destruct p as [|t p]; [split; [intros t []|split; [reflexivity|congruence]]|]. unfold max_deg.
  assert (G : forall q d, d <= fold_left (fun d u => if f (fst u) >? d then f (fst u) else d) q d /\
     (forall u : mono * C, In u q -> f (fst u) <= fold_left (fun d u => if f (fst u) >? d then f (fst u) else d) q d) /\
     (fold_left (fun d u => if f (fst u) >? d then f (fst u) else d) q d = d \/
      exists u, In u q /\ f (fst u) = fold_left (fun d u => if f (fst u) >? d then f (fst u) else d) q d)).
  { induction q as [|u q IH]; intros d; cbn [fold_left]; [split; [lia|split; [intros u []|auto]]|].
    destruct (IH (if f (fst u) >? d then f (fst u) else d)) as (A & B & D).
    assert (E : f (fst u) <= (if f (fst u) >? d then f (fst u) else d) /\ d <= (if f (fst u) >? d then f (fst u) else d)).
    { destruct (Z.gtb_spec (f (fst u)) d); lia. }
    split; [lia|]. split.
    - intros w [<-|Hw]; [lia|apply B, Hw].
    - destruct D as [D|(w & Hw & D)].
      + rewrite D. destruct (Z.gtb_spec (f (fst u)) d); [right; exists u; split; [left; reflexivity|reflexivity]|left; reflexivity].
      + right. exists w. split; [right; exact Hw|exact D]. }
  destruct (G p (f (fst t))) as (A & B & D). specialize (Hpos t (or_introl eq_refl)).
  split; [intros u [<-|Hu]; [exact A|apply B, Hu]|]. split; [lia|]. intros _.
  destruct D as [D|(w & Hw & D)]; [exists t|exists w]; split; try (rewrite D); auto with datatypes.
Qed.
Lemma fold_max0 f (p : poly) : (forall t, In t p -> 0 <= f (fst t)) ->
  fold_left (fun d u => if f (fst u) >? d then f (fst u) else d) p 0 = max_deg f p.
Proof.
  intros H. destruct p as [|t p]; [reflexivity|]. cbn [fold_left]. unfold max_deg. f_equal.
  specialize (H t (or_introl eq_refl)). destruct (Z.gtb_spec (f (fst t)) 0); lia.
Qed.
Lemma mdeg_nonneg p v t : norm p -> In t p -> 0 <= mono_deg (fst t) v.
Proof.
  intros N Hin. destruct (norm_in S (mok vo) K p t N Hin) as [O _]. rewrite (mok_mono_deg vo Hvo _ v O). apply (zexp_nonneg vo), O.
Qed.
Lemma p_degree_spec p v : norm p -> 0 <= p_degree p v /\ deg_is K (graw p) v (Z.to_N (p_degree p v)).
Proof.
  intros N. destruct (max_deg_spec (fun m => mono_deg m v) p) as (A & B & D); [intros t Ht; apply (mdeg_nonneg p); assumption|].
  fold (p_degree p v) in *. split; [exact B|]. split.
  - intros s Hs. apply (norm_supp S (mok vo) sm K HS HK p s N) in Hs as (t & Hin & E).
    destruct (norm_in S (mok vo) K p t N Hin) as [O _]. rewrite <- (E v), (exp_sm_mok vo _ v O).
    specialize (A t Hin). cbv beta in A. rewrite (mok_mono_deg vo Hvo _ v O) in A. fold (p_degree p v) in A. lia.
  - destruct p as [|t0 p0] eqn:Ep; [left; reflexivity|]. rewrite <- Ep in *. right.
    destruct D as (t & Hin & E); [rewrite Ep; discriminate|]. exists (sm (fst t)).
    destruct (norm_in S (mok vo) K p t N Hin) as [O Z]. split.
    + rewrite (in_coef S (mok vo) sm K HS HK p t); [exact Z|apply N|apply N|exact Hin].
    + rewrite (exp_sm_mok vo _ v O), <- (mok_mono_deg vo Hvo _ v O). fold (p_degree p v) in E. rewrite E. reflexivity.
Qed.
(** zexp reading of the degree *)
Lemma p_degree_max p v t : norm p -> In t p -> zexp (fst t) v <= p_degree p v.
Proof.
  intros N Hin. destruct (max_deg_spec (fun m => mono_deg m v) p) as (A & _); [intros u Hu; apply (mdeg_nonneg p); assumption|].
  specialize (A t Hin). destruct (norm_in S (mok vo) K p t N Hin) as [O _]. cbv beta in A. rewrite (mok_mono_deg vo Hvo _ v O) in A. exact A.
Qed.

(** total degree *)
Lemma get_deg_spec p : norm p -> get_deg p = max_deg mg p.
Proof.
  intros N. unfold get_deg, max_deg. destruct p as [|t p]; [reflexivity|]. cbn [fold_left].
  replace (Z.max (mg (fst t)) (mg (fst t))) with (mg (fst t)) by lia.
  generalize (mg (fst t)) as d. clear. induction p as [|u p IH]; intros d; cbn [fold_left]; [reflexivity|].
  rewrite <- IH. f_equal. destruct (Z.gtb_spec (mg (fst u)) d); lia.
Qed.

(** ** derivative *)
Lemma cofZ_cnat z : 0 <= z -> cofZ K z = cnat K (Z.to_nat z).
Proof.
  destruct z as [|p|p]; intros H; [reflexivity| |lia]. unfold cofZ. cbn [Z.to_nat].
  induction p as [|p IH] using Pos.peano_ind.
  - simpl. ring.
  - rewrite Pos2Nat.inj_succ. cbn [cnat]. rewrite <- IH by lia. apply Pos.iter_op_succ. intros. ring.
Qed.
Lemma derivative_shape x (p : poly) : p_derivative K x p =
  map (fun t => (dmono x (fst t), cmul K (cofZ K (dexp x (fst t))) (snd t))) (filter (fun t => negb (dexp x (fst t) =? 0)) p).
Proof. unfold p_derivative. apply (flat_map_if' (fun t : mono * C => dexp x (fst t) =? 0)). Qed.
Lemma derivative_keys x p t : norm p -> In t (filter (fun t => negb (dexp x (fst t) =? 0)) p) ->
  In t p /\ mok vo (fst t) /\ 0 < zexp (fst t) x.
Proof.
  intros N Hin. apply filter_In in Hin as [Hin E]. destruct (norm_in S (mok vo) K p t N Hin) as [O _].
  rewrite (dexp_spec vo Hvo x _ O) in E. pose proof (zexp_nonneg vo (fst t) x O).
  split; [exact Hin|]. split; [exact O|]. destruct (Z.eqb_spec (zexp (fst t) x) 0); [discriminate|lia].
Qed.
Lemma derivative_desc x p : norm p -> all_ok (mok vo) (p_derivative K x p) /\ desc gt (p_derivative K x p).
Proof.
  intros N. rewrite derivative_shape. split.
  - unfold all_ok. rewrite Forall_map, Forall_forall. intros t Ht. destruct (derivative_keys x p t N Ht) as (_ & O & P).
    apply (dmono_spec vo Hvo x _ O P).
  - apply (desc_map_cancel S (mok vo) sm HS (fun t => dmono x (fst t)) _ (umono x 1)).
    + apply (umono_spec vo x 1). lia.
    + intros t Ht. destruct (derivative_keys x p t N Ht) as (_ & O & P). destruct (dmono_spec vo Hvo x _ O P) as [O' X].
      split; [exact O'|]. rewrite S_mul. apply (split_var_eq vo Hvo); [exact O|exact O'|lia|exact X].
    + apply (desc_filter S), N.
Qed.
Lemma derivative_req x p : norm p -> req K (graw (p_derivative K x p)) (rderiv K x (graw p)).
Proof.
  intros N. apply (graw_rlin sm K HK). intros t Ht. destruct (norm_in S (mok vo) K p t N Ht) as [O _].
  rewrite (dexp_spec vo Hvo x _ O). pose proof (zexp_nonneg vo (fst t) x O) as Nn.
  rewrite (exp_sm_mok vo _ x O). cbn [map fst snd].
  destruct (Z.eqb_spec (zexp (fst t) x) 0) as [E|E].
  - rewrite E. intros s. simpl. destruct (meqb _ s); ring.
  - cbn [MonoStruct.graw map fst snd]. apply (req_single K).
    + destruct (dmono_spec vo Hvo x (fst t) O) as [O' X]; [lia|]. intros w.
      rewrite (exp_sm_mok vo _ w O'), (X w). cbn [exp]. rewrite exp_mdrop, (exp_sm_mok vo _ w O).
      rewrite (N.eqb_sym x w). destruct (N.eqb_spec w x) as [->|n]; lia.
    + rewrite cofZ_cnat by lia. rewrite Z_N_nat. ring.
Qed.
Lemma derivative_normal x p (Hc : forall n c, (0 < n)%nat -> c <> c0 K -> cmul K (cnat K n) c <> c0 K) :
  norm p -> norm (p_derivative K x p).
Proof.
  intros N. destruct (derivative_desc x p N) as [A D]. split; [exact A|]. split; [exact D|]. rewrite derivative_shape.
  unfold nonzero. rewrite Forall_map, Forall_forall. intros t Ht. destruct (derivative_keys x p t N Ht) as (Hin & O & P).
  cbn [snd]. rewrite (dexp_spec vo Hvo x _ O), cofZ_cnat by lia. apply Hc; [lia|]. apply (norm_in S (mok vo) K p t N Hin).
Qed.

(** ** leadcoeff(F,v) *)
Lemma leadcoeff_v_spec srt F v : norm F -> sort_ok (mok vo) gt srt ->
  let '(Ol, d) := leadcoeff_v K vo gt srt F v in
  d = p_degree F v /\ norm Ol /\ req K (graw Ol) (rcoeff K v (Z.to_N d) (graw F)).
Proof.
  intros N Hs. unfold leadcoeff_v.
  rewrite (fold_max0 (fun m => mono_deg m v)) by (intros t Ht; apply (mdeg_nonneg F); assumption).
  fold (p_degree F v). set (d := p_degree F v).
  assert (Hd : 0 <= d) by apply (p_degree_spec F v N).
  split; [reflexivity|].
  destruct (Z.eqb_spec d 0) as [E|E].
  - split; [exact N|]. rewrite E. symmetry. transitivity (rlin K (fun m => rmono K m) (graw F)); [|apply (rlin_id K HK)].
    apply (rlin_ext K HK). intros m c Hin. unfold MonoStruct.graw in Hin. apply in_map_iff in Hin as (t & [= <- <-] & Hin).
    destruct (norm_in S (mok vo) K F t N Hin) as [O _]. rewrite (exp_sm_mok vo _ v O).
    pose proof (p_degree_max F v t N Hin) as L. fold d in L. pose proof (zexp_nonneg vo (fst t) v O).
    assert (Z0 : zexp (fst t) v = 0) by lia. rewrite Z0. simpl. apply (req_single K); [|reflexivity].
    intros w. rewrite exp_mdrop. destruct (N.eqb_spec w v) as [->|n]; [|reflexivity]. rewrite (exp_sm_mok vo _ v O), Z0. reflexivity.
  - assert (Shape : flat_map (fun t => if mono_deg (fst t) v =? d then [(change_var_deg vo (fst t) v 0, snd t)] else []) F
      = map (fun t => (change_var_deg vo (fst t) v 0, snd t)) (filter (fun t => mono_deg (fst t) v =? d) F)).
    { apply (flat_map_if (fun t : mono * C => mono_deg (fst t) v =? d)). }
    assert (Nl : norm (map (fun t => (change_var_deg vo (fst t) v 0, snd t)) (filter (fun t => mono_deg (fst t) v =? d) F))).
    { apply (norm_map_cancel S (mok vo) sm K HS (fun t => change_var_deg vo (fst t) v 0) snd (umono v d)).
      - apply (umono_spec vo v d Hd).
      - intros t Ht. apply filter_In in Ht as [Hin Et]. destruct (norm_in S (mok vo) K F t N Hin) as [O _].
        apply Z.eqb_eq in Et. rewrite (mok_mono_deg vo Hvo _ v O) in Et.
        split; [apply (change_var_deg_spec vo Hvo); [exact O|lia]|]. rewrite S_mul.
        replace 0 with (zexp (fst t) v - d) by lia. apply (split_var vo Hvo); [exact O|lia].
      - intros t Ht. apply filter_In in Ht as [Hin _]. apply (norm_in S (mok vo) K F t N Hin).
      - apply (norm_filter S (mok vo) K), N. }
    rewrite Shape. rewrite <- S_eq. rewrite (normalization_id (mok vo) gt (m_eq S) K HO (ms_eq S (mok vo) sm HS) HK srt _ Nl).
    split; [exact Nl|]. rewrite <- Shape.
    apply (graw_rlin sm K HK). intros t Ht. destruct (norm_in S (mok vo) K F t N Ht) as [O _].
    rewrite (mok_mono_deg vo Hvo _ v O), (exp_sm_mok vo _ v O). pose proof (zexp_nonneg vo (fst t) v O).
    destruct (Z.eqb_spec (zexp (fst t) v) d) as [E'|E'].
    + rewrite E', N.eqb_refl. cbn [MonoStruct.graw map fst snd]. apply (req_single K); [|ring].
      destruct (change_var_deg_spec vo Hvo (fst t) v 0 O) as [O' X]; [lia|]. apply (sm_drop vo); assumption.
    + destruct (N.eqb_spec (Z.to_N (zexp (fst t) v)) (Z.to_N d)) as [E2|E2]; [lia|reflexivity].
Qed.

(** ** substitution *)
Lemma asg_coef_spec rho z m : mok vo m -> asg_coef K rho z m = cmul K z (msubc K rho (sm m)).
Proof.
  intros H. unfold asg_coef, msubc, sm. destruct H as (_ & Hp & _). revert z. induction Hp as [|[w e] l He Hl IH]; intros z; simpl; [ring|].
  rewrite IH. destruct (rho w); [rewrite Z_N_nat; ring|].
  assert (E : forall n, cpow K (c1 K) n = c1 K) by (induction n as [|n IHn]; simpl; [reflexivity|rewrite IHn; ring]). rewrite E. ring.
Qed.
Definition pend_list (pend : option (mono * C)) : poly := match pend with None => [] | Some t => [t] end.
Lemma asg_go_csum rho phi p : forall pend,
  csum K phi (asg_go K rho pend p) = csum K phi (pend_list pend ++ map (fun t => (asg_mono rho (fst t), asg_coef K rho (snd t) (fst t))) p).
Proof.
  induction p as [|t p IH]; intros pend; cbn [asg_go map].
  - rewrite app_nil_r. destruct pend as [[m1 z1]|]; [|reflexivity]. cbn [pend_list]. destruct (is0_spec K HK z1) as [->|n]; [|reflexivity].
    cbn [csum fst snd]. destruct (phi m1); ring.
  - destruct pend as [[m1 z1]|]; [|rewrite IH; reflexivity].
    destruct (mono_eqb (asg_mono rho (fst t)) m1) eqn:E; cbn [negb].
    + rewrite IH. apply mono_eqb_iff in E. cbn [pend_list]. rewrite !(csum_app K HK). cbn [csum fst snd]. rewrite E.
      destruct (phi m1); ring.
    + rewrite !(csum_app K HK), IH. cbn [pend_list]. rewrite !(csum_app K HK). cbn [csum fst snd].
      destruct (is0_spec K HK z1) as [->|n]; cbn [csum fst snd]; destruct (phi m1), (phi (asg_mono rho (fst t))); ring.
Qed.
Lemma asg_go_keys (P : mono -> Prop) rho p : forall pend,
  Forall (fun t => P (fst t)) (pend_list pend) -> Forall (fun t => P (asg_mono rho (fst t))) p ->
  Forall (fun t => P (fst t)) (asg_go K rho pend p).
Proof.
  induction p as [|t p IH]; intros pend Hp H; cbn [asg_go].
  - destruct pend as [[m1 z1]|]; [|constructor]. destruct (is0 K z1); [constructor|exact Hp].
  - inversion H; subst. destruct pend as [[m1 z1]|].
    + inversion Hp; subst. destruct (mono_eqb (asg_mono rho (fst t)) m1); cbn [negb].
      * apply IH; [constructor; [assumption|constructor]|assumption].
      * apply Forall_app. split; [destruct (is0 K z1); [constructor|exact Hp]|]. apply IH; [repeat constructor; assumption|assumption].
    + apply IH; [repeat constructor; assumption|assumption].
Qed.
Lemma assign_spec rho srt p : norm p -> sort_ok (mok vo) gt srt ->
  all_ok (mok vo) (p_assign K gt srt rho p) /\ desc gt (p_assign K gt srt rho p) /\
  req K (graw (p_assign K gt srt rho p)) (rsubst K rho (graw p)).
Proof.
  intros N Hs. unfold p_assign. rewrite <- S_eq.
  assert (Hok : all_ok (mok vo) (asg_go K rho None p)).
  { apply asg_go_keys; [constructor|]. apply Forall_forall. intros t Ht. apply (asg_mono_spec vo rho).
    apply (norm_in S (mok vo) K p t N Ht). }
  destruct (normalization_sound (mok vo) gt (m_eq S) K HO (ms_eq S (mok vo) sm HS) HK srt _ Hs Hok) as (A & D & E).
  split; [exact A|]. split; [exact D|].
  transitivity (graw (map (fun t => (asg_mono rho (fst t), asg_coef K rho (snd t) (fst t))) p)).
  - apply (csum_graw sm K). intros phi. rewrite E. apply (asg_go_csum rho phi p None).
  - apply (graw_rlin1 sm K HK). intros t Ht. destruct (norm_in S (mok vo) K p t N Ht) as [O _].
    cbn [MonoStruct.graw map fst snd]. apply (req_single K); [|apply asg_coef_spec, O].
    destruct (asg_mono_spec vo rho (fst t) O) as [O' X]. intros w. rewrite exp_msub, (exp_sm_mok vo _ w O'), (exp_sm_mok vo _ w O), (X w).
    destruct (rho w); reflexivity.
Qed.
Lemma asg_go_nonzero rho p : forall pend, nonzero K (asg_go K rho pend p).
Proof.
  induction p as [|t p IH]; intros pend; cbn [asg_go].
  - destruct pend as [[m1 z1]|]; [|constructor]. destruct (is0_spec K HK z1); repeat constructor; assumption.
  - destruct pend as [[m1 z1]|]; [|apply IH]. destruct (mono_eqb _ m1); cbn [negb]; [apply IH|].
    apply Forall_app. split; [|apply IH]. destruct (is0_spec K HK z1); repeat constructor; assumption.
Qed.

(** ** get_variables *)
Lemma vars_merge_cons t l u ms : vars_merge vo (t :: l) (u :: ms) =
  if vo (fst t) (fst u) then t :: vars_merge vo l (u :: ms)
  else if vo (fst u) (fst t) then u :: vars_merge vo (t :: l) ms
  else (fst t, if snd u >? snd t then snd u else snd t) :: vars_merge vo l ms.
Proof. reflexivity. Qed.
Lemma vars_merge_lcm l ms : dok vo l -> dok vo ms -> vars_merge vo l ms = lcm_merge vo l ms.
Proof.
  revert ms. induction l as [|t l IH]; intros ms D1 D2; [reflexivity|]. induction ms as [|u ms IH2]; [reflexivity|].
  pose proof D1 as D1'. pose proof D2 as D2'.
  apply dok_cons in D1' as (_ & _ & D1'). apply dok_cons in D2' as (_ & _ & D2').
  rewrite vars_merge_cons, (lcm_merge_cons vo). destruct (vo (fst t) (fst u)) eqn:E; [rewrite IH by assumption; reflexivity|].
  destruct (N.eqb_spec (fst t) (fst u)) as [e|n].
  - rewrite <- e. rewrite (vo_irrefl vo Hvo). rewrite IH by assumption. f_equal. f_equal. destruct (Z.gtb_spec (snd u) (snd t)); lia.
  - destruct (vo_total vo Hvo (fst t) (fst u)) as [X|[X|X]]; [congruence|congruence|]. rewrite X. rewrite IH2 by assumption. reflexivity.
Qed.
Lemma get_variables_spec p : norm p ->
  dok vo (get_variables vo p) /\ forall v, csum Zc (N.eqb v) (get_variables vo p) = p_degree p v.
Proof.
  intros N. unfold get_variables.
  assert (G : forall (q : poly) l, dok vo l -> Forall (fun t => mok vo (fst t)) q ->
     dok vo (fold_left (fun l t => vars_merge vo l (md (fst t))) q l) /\
     forall v, csum Zc (N.eqb v) (fold_left (fun l t => vars_merge vo l (md (fst t))) q l)
        = fold_left (fun d u => if mono_deg (fst u) v >? d then mono_deg (fst u) v else d) q (csum Zc (N.eqb v) l)).
  { induction q as [|t q IH]; intros l D Hq; [split; [exact D|reflexivity]|]. inversion Hq as [|? ? Ot Hq']; subst.
    cbn [fold_left]. rewrite (vars_merge_lcm l (md (fst t)) D (mok_dok vo _ Ot)).
    destruct (lcm_merge_spec vo Hvo l (md (fst t)) D (mok_dok vo _ Ot)) as [D' X].
    destruct (IH _ D' Hq') as [D2 X2]. split; [exact D2|]. intros v. rewrite (X2 v), (X v). f_equal.
    rewrite (mok_mono_deg vo Hvo _ v Ot). unfold zexp. destruct (Z.gtb_spec (csum Zc (N.eqb v) (md (fst t))) (csum Zc (N.eqb v) l)); lia. }
  destruct (G p [] ) as [D X]; [split; constructor|apply N|]. split; [exact D|]. intros v. rewrite (X v).
  apply (fold_max0 (fun m => mono_deg m v)). intros t Ht. apply (mdeg_nonneg p); assumption.
Qed.
End P.
