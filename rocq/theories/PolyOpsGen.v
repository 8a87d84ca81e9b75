(** * Generic facts used by the polynomial-layer proofs: terms and coefficients, sub-lists, maps. *)
From Coq Require Import Ring Setoid Morphisms Sorting.Sorted Permutation.
From Verif Require Import Prelude Coef Spec SpecProofs SpecOps SpecOpsProofs OrderSpec PairVec PairVecProofs Mono MonoProofs
  MonoStruct MonoStructProofs Poly PolyMulProofs PolyOps MonoOpsProofs.

Lemma flat_map_if {A B} (P : A -> bool) (f : A -> B) l :
  flat_map (fun t => if P t then [f t] else []) l = map f (filter P l).
Proof. induction l as [|t l IH]; [reflexivity|]. simpl. destruct (P t); simpl; rewrite IH; reflexivity. Qed.
Lemma flat_map_if' {A B} (P : A -> bool) (f : A -> B) l :
  flat_map (fun t => if P t then [] else [f t]) l = map f (filter (fun t => negb (P t)) l).
Proof. induction l as [|t l IH]; [reflexivity|]. simpl. destruct (P t); simpl; rewrite IH; reflexivity. Qed.

Section Gen.
Context {M C : Type} (S : monos M) (ok : M -> Prop) (sm : M -> smono) (K : coefs C).
Context (HS : monos_ok S ok sm) (HK : ring_ok K).
Add Ring Kring : (ring_laws K HK).
Add Ring Rring : (rring K HK) (setoid (req_equiv K) (rring_ext K HK)).
Notation gt := (m_gt S).
Notation norm := (normal ok gt K).
Notation graw := (graw sm).
Let HO := ms_order S ok sm HS.

Lemma norm_in p t : norm p -> In t p -> ok (fst t) /\ snd t <> c0 K.
Proof.
  intros (A & _ & B) Hin. unfold all_ok, nonzero in *. rewrite Forall_forall in A, B. split; [apply A, Hin|apply B, Hin].
Qed.
Lemma in_coef p t : all_ok ok p -> desc gt p -> In t p -> coef K (graw p) (sm (fst t)) = snd t.
Proof.
  intros A D Hin. rewrite <- (csum_gcoef S ok sm K HS p (fst t) A).
  - apply (csum_desc_in ok gt (m_eq S) K HO (ms_eq S ok sm HS) HK); assumption.
  - unfold all_ok in A. rewrite Forall_forall in A. apply A, Hin.
Qed.
Lemma coef_in p s : coef K (graw p) s <> c0 K -> exists t, In t p /\ meq (sm (fst t)) s.
Proof.
  intros H. apply (coef_supp K) in H as (m & Hin & E). unfold MonoStruct.graw in Hin. rewrite map_map in Hin.
  apply in_map_iff in Hin as (t & <- & Hin). exists t. auto.
Qed.
Lemma norm_supp p s : norm p -> (coef K (graw p) s <> c0 K <-> exists t, In t p /\ meq (sm (fst t)) s).
Proof.
  intros N. split; [apply coef_in|]. intros (t & Hin & E).
  rewrite <- (coef_proper K HK (graw p) _ _ E). rewrite (in_coef p t (proj1 N) (proj1 (proj2 N)) Hin).
  apply (norm_in p t N Hin).
Qed.

(** ** sub-lists and concatenation *)
Lemma Forall_filter {A} (P : A -> Prop) f l : Forall P l -> Forall P (filter f l).
Proof. intros H. rewrite Forall_forall in *. intros x Hx. apply H. apply filter_In in Hx. apply Hx. Qed.
Lemma desc_filter {B} f (l : list (M * B)) : desc gt l -> desc gt (filter f l).
Proof.
  induction l as [|t l IH]; intros H; [exact H|]. apply (desc_cons gt) in H as [H G]. simpl. destruct (f t); [|apply IH, H].
  apply (desc_cons gt). split; [apply IH, H|apply Forall_filter, G].
Qed.
Lemma norm_filter f p : norm p -> norm (filter f p).
Proof. intros (A & D & Z). split; [apply Forall_filter, A|]. split; [apply desc_filter, D|apply Forall_filter, Z]. Qed.
Lemma desc_app {B} (p q : list (M * B)) : desc gt (p ++ q) <->
  desc gt p /\ desc gt q /\ Forall (fun t => Forall (fun u => gt (fst t) (fst u) = true) q) p.
Proof.
  induction p as [|t p IH]; simpl; [split; [intros H; repeat split; [constructor|exact H|constructor]|tauto]|].
  rewrite !(desc_cons gt), IH, Forall_app. split.
  - intros ((A & B' & D) & E & F). repeat split; try assumption. constructor; assumption.
  - intros ((A & A') & B' & D). inversion D; subst. tauto.
Qed.
Lemma norm_app p q : norm (p ++ q) <-> norm p /\ norm q /\ Forall (fun t => Forall (fun u => gt (fst t) (fst u) = true) q) p.
Proof.
  unfold normal, all_ok, nonzero. rewrite desc_app, !Forall_app. tauto.
Qed.

(** ** cancelling a common factor *)
Lemma gt_cancel a b c : ok a -> ok b -> ok c -> gt (m_mul S a c) (m_mul S b c) = true -> gt a b = true.
Proof.
  intros Ha Hb Hc H. destruct (gt_total ok gt HO a b Ha Hb) as [->|[E|E]]; [|exact E|].
  - rewrite (gt_irrefl ok gt HO) in H; [discriminate|]. apply (ms_mul_ok S ok sm HS); assumption.
  - apply (ms_gt_mul S ok sm HS b a c Hb Ha Hc) in E.
    rewrite (gt_asym ok gt HO (m_mul S a c) (m_mul S b c)) in E; [discriminate|..|exact H]; apply (ms_mul_ok S ok sm HS); assumption.
Qed.
Lemma desc_map_cancel {B D} (g : M * B -> M) (h : M * B -> D) c (p : list (M * B)) : ok c ->
  (forall t, In t p -> ok (g t) /\ fst t = m_mul S (g t) c) ->
  desc gt p -> desc gt (map (fun t => (g t, h t)) p).
Proof.
  intros Hc H D0. induction p as [|t p IH]; [constructor|]. apply (desc_cons gt) in D0 as [D0 G].
  cbn [map]. apply (desc_cons gt). split; [apply IH; [intros u Hu; apply H; right; exact Hu|exact D0]|].
  rewrite Forall_map. rewrite Forall_forall in *. intros u Hu. cbn [fst].
  destruct (H t (or_introl eq_refl)) as [Ot Et]. destruct (H u (or_intror Hu)) as [Ou Eu].
  apply (gt_cancel _ _ c Ot Ou Hc). rewrite <- Et, <- Eu. apply G, Hu.
Qed.
Lemma norm_map_cancel (g : M * C -> M) (h : M * C -> C) c p : ok c ->
  (forall t, In t p -> ok (g t) /\ fst t = m_mul S (g t) c) -> (forall t, In t p -> h t <> c0 K) ->
  norm p -> norm (map (fun t => (g t, h t)) p).
Proof.
  intros Hc H Hz (A & D & _). split; [|split].
  - unfold all_ok. rewrite Forall_map, Forall_forall. intros t Ht. apply H, Ht.
  - apply (desc_map_cancel g h c); assumption.
  - unfold nonzero. rewrite Forall_map, Forall_forall. intros t Ht. apply Hz, Ht.
Qed.

(** ** scaling *)
Lemma graw_scale p c : req K (graw (map (fun t => (fst t, cmul K (snd t) c)) p)) (rscale K c (graw p)).
Proof.
  intros s. rewrite (coef_scale K HK). unfold MonoStruct.graw. induction p as [|[m a] p IH]; simpl; [ring|].
  destruct (meqb (sm m) s); rewrite IH; ring.
Qed.
Lemma p_scale_spec (HD : domain_ok K) srt p c : norm p ->
  norm (p_scale K S srt p c) /\ req K (graw (p_scale K S srt p c)) (rscale K c (graw p)).
Proof.
  intros N. unfold p_scale. destruct (is0_spec K HK c) as [->|Hc].
  - split; [split; [constructor|split; constructor]|]. intros s. rewrite (coef_scale K HK). simpl. ring.
  - assert (N' : norm (map (fun t => (fst t, cmul K (snd t) c)) p)).
    { apply (norm_map_cancel fst (fun t => cmul K (snd t) c) (m_one S)); [apply (ms_one_ok S ok sm HS)|..|exact N].
      - intros t Ht. split; [apply (norm_in p t N Ht)|]. symmetry. apply (ms_mul_1_r S ok sm HS). apply (norm_in p t N Ht).
      - intros t Ht E. apply (domain_integral K HD) in E as [E|E]; [apply (norm_in p t N Ht), E|contradiction]. }
    rewrite (normalization_id ok gt (m_eq S) K HO (ms_eq S ok sm HS) HK srt _ N'). split; [exact N'|apply graw_scale].
Qed.

(** Termwise comparison with a linear extension. *)
Lemma graw_rlin (f : smono -> rpoly C) (g : M * C -> list (M * C)) p :
  (forall t, In t p -> req K (graw (g t)) (map (fun u => (fst u, cmul K (snd t) (snd u))) (f (sm (fst t))))) ->
  req K (graw (flat_map g p)) (rlin K f (graw p)).
Proof.
  intros H. induction p as [|t p IH]; [reflexivity|]. cbn [flat_map]. rewrite (graw_app sm).
  destruct t as [m c]. cbn [MonoStruct.graw map fst snd]. rewrite rlin_cons.
  apply (app_req_proper K HK); [apply (H (m, c)); left; reflexivity|apply IH; intros t Ht; apply H; right; exact Ht].
Qed.
Lemma graw_rlin1 (f : smono -> rpoly C) (g : M * C -> M * C) p :
  (forall t, In t p -> req K (graw [g t]) (map (fun u => (fst u, cmul K (snd t) (snd u))) (f (sm (fst t))))) ->
  req K (graw (map g p)) (rlin K f (graw p)).
Proof.
  intros H. replace (map g p) with (flat_map (fun t => [g t]) p).
  - apply graw_rlin, H.
  - clear. induction p as [|t p IH]; [reflexivity|]. simpl. rewrite IH. reflexivity.
Qed.
End Gen.
