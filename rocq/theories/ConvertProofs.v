(** * Proofs about conversions between polynomial types and about univariate operations (PolyOps.v). *)
From Coq Require Import Ring Setoid Morphisms Sorting.Sorted Permutation.
From Verif Require Import Prelude Coef Spec SpecProofs SpecOps SpecOpsProofs OrderSpec PairVec PairVecProofs Mono MonoProofs
  MonoStruct MonoStructProofs Poly PolyMulProofs PolyOps MonoOpsProofs PolyOpsGen PolyOpsProofs PolyOps2Proofs.
Local Open Scope Z_scope.

Lemma csum_map_key {A A' B} (K : coefs B) (f : A * B -> A' * B) phi psi l :
  (forall t, In t l -> phi (fst (f t)) = psi (fst t) /\ snd (f t) = snd t) ->
  csum K phi (map f l) = csum K psi l.
Proof.
  induction l as [|[a b] l IH]; intros H; [reflexivity|]. destruct (H (a, b) (or_introl eq_refl)) as [E1 E2].
  cbn [map csum]. destruct (f (a, b)) as [a' b']. cbn [fst snd csum] in *. rewrite E1, E2, IH; [reflexivity|].
  intros t Ht. apply H. right. exact Ht.
Qed.

(** changing coefficients of a list in which at most one key matches *)
Lemma csum_map_coef {M C1 C2} (S : monos M) ok sm (HS : monos_ok S ok sm) (K1 : coefs C1) (K2 : coefs C2)
  (H1 : ring_ok K1) (H2 : ring_ok K2) (phi : C1 -> C2) (P0 : phi (c0 K1) = c0 K2) (p : list (M * C1)) s :
  all_ok ok p -> desc (m_gt S) p ->
  csum K2 (fun m => meqb (sm m) s) (map (fun t => (fst t, phi (snd t))) p) = phi (csum K1 (fun m => meqb (sm m) s) p).
Proof.
  pose proof (ring_laws K1 H1) as R1. pose proof (ring_laws K2 H2) as R2.
  induction p as [|[m c] p IH]; intros A D; [symmetry; exact P0|]. inversion A as [|? ? Om A']; subst. apply (desc_cons (m_gt S)) in D as [D G].
  cbn [map csum fst snd]. destruct (meqb_spec (sm m) s) as [E|E]; [|apply IH; assumption].
  assert (X : forall u, In u (map fst p) -> meqb (sm u) s = false).
  { intros u Hu. destruct (meqb_spec (sm u) s) as [E'|]; [|reflexivity]. exfalso.
    apply in_map_iff in Hu as (t & <- & Hin). rewrite Forall_forall in G. specialize (G t Hin). cbn [fst] in G.
    unfold all_ok in A'. rewrite Forall_forall in A'. assert (fst t = m) as Et.
    { apply (ms_inj S ok sm HS); [apply A', Hin|exact Om|]. rewrite E', E. reflexivity. }
    rewrite Et, (gt_irrefl _ _ (ms_order S ok sm HS)) in G; [discriminate|exact Om]. }
  rewrite (csum_notin K1), (csum_notin K2).
  - rewrite (Radd_comm R1), (Radd_0_l R1), (Radd_comm R2), (Radd_0_l R2). reflexivity.
  - intros u Hu. rewrite map_map in Hu. apply X. exact Hu.
  - exact X.
Qed.

Section Conv.
Context (vo1 vo2 : vorder) (Hv1 : vorder_ok vo1) (Hv2 : vorder_ok vo2).
Context (S1 S2 : monos mono) (HS1 : S1 = lexS vo1 \/ S1 = grlexS vo1) (HS2 : S2 = lexS vo2 \/ S2 = grlexS vo2).
Context {C1 C2 : Type} (K1 : coefs C1) (K2 : coefs C2) (HK1 : ring_ok K1) (HK2 : ring_ok K2).
Context (phi : C1 -> C2) (P0 : phi (c0 K1) = c0 K2).
Context (msrt : list (var * Z) -> list (var * Z)) (Hms : sort_ok (fun _ : var => True) vo2 msrt).
Context (srt : poly C2 -> poly C2) (Hsrt : sort_ok (mok vo2) (m_gt S2) srt).
Notation norm1 := (normal (mok vo1) (m_gt S1) K1).
Notation norm2 := (normal (mok vo2) (m_gt S2) K2).
Let M1 := HS vo1 Hv1 S1 HS1.
Let M2 := HS vo2 Hv2 S2 HS2.

Lemma mono_of_conv m : mok vo1 m -> mok vo2 (mono_of vo2 msrt (md m)) /\ (forall w, zexp (mono_of vo2 msrt (md m)) w = zexp m w) /\
  meq (sm (mono_of vo2 msrt (md m))) (sm m).
Proof.
  intros H. destruct (mono_of_spec vo2 Hv2 msrt (md m) Hms) as [A B].
  - apply (dok_nodup vo1 Hv1), mok_dok, H.
  - apply H.
  - split; [exact A|]. split; [exact B|]. intros w. rewrite (exp_sm_mok vo2 _ w A), (exp_sm_mok vo1 _ w H). rewrite (B w). reflexivity.
Qed.
Lemma convert_spec p : norm1 p ->
  norm2 (p_convert K2 vo2 (m_gt S2) msrt srt phi p) /\
  forall s, coef K2 (graw sm (p_convert K2 vo2 (m_gt S2) msrt srt phi p)) s = phi (coef K1 (graw sm p) s).
Proof.
  intros N. unfold p_convert. set (L := map _ p).
  assert (Lok : all_ok (mok vo2) L).
  { unfold L, all_ok. rewrite Forall_map, Forall_forall. intros t Ht. apply mono_of_conv. apply (norm_in S1 (mok vo1) K1 p t N Ht). }
  assert (LC : forall s, csum K2 (fun m => meqb (sm m) s) L = phi (coef K1 (graw sm p) s)).
  { intros s. rewrite (coef_graw sm K1). rewrite <- (csum_map_coef S1 (mok vo1) sm M1 K1 K2 HK1 HK2 phi P0 p s (proj1 N) (proj1 (proj2 N))).
    unfold L. rewrite <- (map_map (fun t : mono * C1 => (fst t, phi (snd t))) (fun t => (mono_of vo2 msrt (md (fst t)), snd t))).
    apply csum_map_key. intros t Ht. cbn [fst snd]. split; [|reflexivity]. apply in_map_iff in Ht as (u & <- & Hu). cbn [fst].
    destruct (mono_of_conv (fst u)) as (_ & _ & E); [apply (norm_in S1 (mok vo1) K1 p u N Hu)|].
    destruct (meqb_spec (sm (mono_of vo2 msrt (md (fst u)))) s) as [e|e], (meqb_spec (sm (fst u)) s) as [e'|e']; try reflexivity; exfalso.
    - apply e'. rewrite <- E. exact e.
    - apply e. rewrite E. exact e'. }
  pose proof (ms_order S2 (mok vo2) sm M2) as HO. rewrite <- (S_eq vo2 S2 HS2).
  split.
  - apply (normalization_normal (mok vo2) (m_gt S2) (m_eq S2) K2 HO (ms_eq S2 (mok vo2) sm M2) HK2 srt L Hsrt Lok).
    intros a b Hin Hb E. unfold L in Hin. apply in_map_iff in Hin as (t & [= <- <-] & Hin).
    destruct (norm_in S1 (mok vo1) K1 p t N Hin) as [Ot _]. destruct (mono_of_conv (fst t) Ot) as (Oa & _ & Ea).
    apply Hb. rewrite <- E. rewrite (csum_gcoef S2 (mok vo2) sm K2 M2 L _ Lok Oa). rewrite (coef_graw sm K2).
    rewrite (LC (sm (mono_of vo2 msrt (md (fst t))))). f_equal. rewrite (coef_proper K1 HK1 (graw sm p) _ _ Ea).
    symmetry. apply (in_coef S1 (mok vo1) sm K1 M1 HK1); [apply N|apply N|exact Hin].
  - intros s. destruct (normalization_sound (mok vo2) (m_gt S2) (m_eq S2) K2 HO (ms_eq S2 (mok vo2) sm M2) HK2 srt L Hsrt Lok) as (_ & _ & E).
    rewrite (coef_graw sm K2), E. apply LC.
Qed.
End Conv.

(** ** reduction of the coefficients, dropping zeros *)
Section Mod.
Context {M C1 C2 : Type} (S : monos M) (ok : M -> Prop) (sm : M -> smono) (HS : monos_ok S ok sm).
Context (K1 : coefs C1) (K2 : coefs C2) (HK1 : ring_ok K1) (HK2 : ring_ok K2) (phi : C1 -> C2) (P0 : phi (c0 K1) = c0 K2).
Lemma mod_spec p : normal ok (m_gt S) K1 p ->
  normal ok (m_gt S) K2 (p_mod K2 phi p) /\ forall s, coef K2 (graw sm (p_mod K2 phi p)) s = phi (coef K1 (graw sm p) s).
Proof.
  intros N. unfold p_mod. rewrite (flat_map_if' (fun t : M * C1 => is0 K2 (phi (snd t))) (fun t => (fst t, phi (snd t)))).
  pose proof (norm_filter S ok K1 (fun t => negb (is0 K2 (phi (snd t)))) p N) as Nf. split.
  - split; [|split].
    + unfold all_ok. rewrite Forall_map. cbn [fst]. apply Nf.
    + unfold desc. rewrite map_map. cbn [fst]. apply Nf.
    + unfold nonzero. rewrite Forall_map, Forall_forall. intros t Ht. cbn [snd]. apply filter_In in Ht as [_ Ht].
      destruct (is0_spec K2 HK2 (phi (snd t))) as [|n]; [discriminate|exact n].
  - intros s. rewrite (coef_graw sm K2), (coef_graw sm K1).
    rewrite <- (csum_map_coef S ok sm HS K1 K2 HK1 HK2 phi P0 p s (proj1 N) (proj1 (proj2 N))).
    pose proof (ring_laws K2 HK2) as R2. clear N Nf.
    induction p as [|[m c] p IH]; [reflexivity|]. cbn [filter map csum fst snd].
    destruct (is0_spec K2 HK2 (phi c)) as [E|E]; cbn [negb map csum fst snd]; rewrite IH; [|reflexivity].
    destruct (meqb (sm m) s); [rewrite E, (Radd_0_l R2); reflexivity|reflexivity].
Qed.
End Mod.

(** ** univariate polynomials *)
Section U.
Context {C : Type} (K : coefs C) (HK : ring_ok K).
Add Ring KringU : (ring_laws K HK).
Notation unorm := (normal uok (m_gt uniS) K).
Notation uraw := (graw usm).

(** renaming variable 0 to [v] *)
Context (vo : vorder) (Hvo : vorder_ok vo) (S : monos mono) (HSS : S = lexS vo \/ S = grlexS vo) (v : var).
Notation norm := (normal (mok vo) (m_gt S) K).
Let M1 := HS vo Hvo S HSS.

Lemma umono_gt a b : 0 <= a -> 0 <= b -> a > b -> m_gt S (umono v a) (umono v b) = true.
Proof.
  intros Ha Hb G. destruct (umono_spec vo v a Ha) as [Oa Xa]. destruct (umono_spec vo v b Hb) as [Ob Xb].
  destruct (umono_spec vo v (a - b)) as [Od Xd]; [lia|].
  assert (E : umono v a = m_mul S (umono v (a - b)) (umono v b)).
  { rewrite (S_mul vo S HSS). apply (mok_ext vo Hvo); [exact Oa|apply mok_mul; assumption|]. intros w. rewrite (zexp_mul vo), (Xa w), (Xd w), (Xb w).
    destruct (N.eqb w v); lia. }
  assert (E1 : umono v b = m_mul S (m_one S) (umono v b)).
  { rewrite (ms_mul_comm S (mok vo) sm M1); [|apply (ms_one_ok S (mok vo) sm M1)|exact Ob]. symmetry. apply (ms_mul_1_r S (mok vo) sm M1), Ob. }
  rewrite E. rewrite E1 at 2. apply (ms_gt_mul S (mok vo) sm M1); try assumption; [apply (ms_one_ok S (mok vo) sm M1)|].
  apply (ms_gt_one S (mok vo) sm M1); [exact Od|]. rewrite (S_one vo S HSS). intros E0.
  specialize (Xd v). rewrite E0, N.eqb_refl in Xd. cbn in Xd. lia.
Qed.
Lemma of_upoly_spec p : unorm p -> norm (of_upoly v p) /\
  forall s, coef K (uraw p) [(0%N, s)] = coef K (graw sm (of_upoly v p)) [(v, s)] .
Proof.
  intros N. split.
  - destruct N as (A & D & Z). unfold of_upoly. split; [|split].
    + unfold all_ok in *. rewrite Forall_map. eapply Forall_impl; [|exact A]. cbn [fst]. intros t Ht. apply (umono_spec vo v _ Ht).
    + induction p as [|t p IH]; [constructor|]. inversion A as [|? ? Ot Ap]; inversion Z as [|? ? Zt Zp']; subst. apply (desc_cons (m_gt uniS)) in D as [D G].
      cbn [map]. apply (desc_cons (m_gt S)). split; [apply IH; assumption|].
      rewrite Forall_map. unfold all_ok in Ap. rewrite Forall_forall in *. intros u Hu. cbn [fst]. apply umono_gt; [exact Ot|apply Ap, Hu|].
      specialize (G u Hu). cbn [m_gt uniS] in G. lia.
    + unfold nonzero in *. rewrite Forall_map. exact Z.
  - intros s. destruct N as (A & _ & _). unfold of_upoly. induction p as [|[e c] p IH]; [reflexivity|]. inversion A as [|? ? Oe A']; subst. cbn [fst] in Oe.
    cbn [map MonoStruct.graw Spec.coef fst snd]. unfold MonoStruct.graw in IH. rewrite IH by exact A'.
    assert (meqb (usm e) [(0%N, s)] = meqb (sm (umono v e)) [(v, s)]) as ->; [|reflexivity].
    destruct (meqb_spec (usm e) [(0%N, s)]) as [H|H], (meqb_spec (sm (umono v e)) [(v, s)]) as [H'|H']; try reflexivity; exfalso.
    + apply H'. rewrite (sm_umono vo v e Oe). specialize (H 0%N). rewrite exp_usm in H. cbn [exp N.eqb] in H. rewrite N.add_0_r in H. rewrite H. reflexivity.
    + apply H. rewrite (sm_umono vo v e Oe) in H'. specialize (H' v). cbn [exp] in H'. rewrite N.eqb_refl in H'. intros w. rewrite exp_usm.
      cbn [exp]. destruct (N.eqb 0 w); lia.
Qed.
Lemma to_of_upoly usrt p : unorm p -> to_upoly K usrt (of_upoly v p) = p.
Proof.
  intros N. unfold to_upoly, of_upoly. rewrite map_map. cbn [fst snd].
  replace (map (fun x : Z * C => (mg (umono v (fst x)), snd x)) p) with p.
  - apply (normalization_id uok (m_gt uniS) (m_eq uniS) K (ms_order uniS uok usm uniS_ok) (ms_eq uniS uok usm uniS_ok) HK usrt p N).
  - destruct N as (A & _). induction p as [|[e c] p IH]; [reflexivity|]. inversion A as [|? ? Oe A']; subst. cbn [map fst snd] in *.
    rewrite <- IH by exact A'. f_equal. f_equal. unfold umono. unfold uok in Oe. destruct (Z.gtb_spec e 0); cbn; lia.
Qed.
Lemma umono_eq m : mok vo m -> (forall w, w <> v -> zexp m w = 0) -> m = umono v (mg m).
Proof.
  intros H X. assert (mg m = zexp m v) as ->.
  { destruct H as (D & P & ->). unfold zexp in *. assert (Dk : dok vo (md m)) by (split; assumption).
    destruct (md m) as [|[w e] l]; [reflexivity|]. destruct l as [|[w2 e2] l].
    - cbn [csum deg_sum fst snd map fold_right] in *. destruct (N.eqb_spec v w) as [e0|n]; [cbn; lia|].
      specialize (X w (not_eq_sym n)). cbn in X. rewrite N.eqb_refl in X. cbn in X. inversion P; subst. cbn in *. lia.
    - exfalso. assert (Z : forall u, In u (map fst ((w, e) :: (w2, e2) :: l)) -> u = v).
      { intros u Hu. destruct (N.eq_dec u v) as [e0|n]; [exact e0|]. specialize (X u n).
        apply (ex_pos_in vo Hvo _ u Dk) in Hu. lia. }
      assert (w = v) as -> by (apply Z; left; reflexivity). assert (w2 = v) as -> by (apply Z; right; left; reflexivity).
      apply (dok_nodup vo Hvo) in Dk. inversion Dk as [|? ? Hn _]; subst. apply Hn. left. reflexivity. }
  destruct (umono_spec vo v (zexp m v) (zexp_nonneg vo m v H)) as [O X']. apply (mok_ext vo Hvo); [exact H|exact O|].
  intros w. rewrite (X' w). destruct (N.eqb_spec w v) as [e0|n]; [subst w; reflexivity|apply X, n].
Qed.
Lemma of_to_upoly usrt p : norm p -> (forall t w, In t p -> w <> v -> zexp (fst t) w = 0) ->
  of_upoly v (to_upoly K usrt p) = p /\ unorm (to_upoly K usrt p).
Proof.
  intros N X. unfold to_upoly.
  assert (E : forall t, In t p -> fst t = umono v (mg (fst t)) /\ 0 <= mg (fst t)).
  { intros t Ht. destruct (norm_in S (mok vo) K p t N Ht) as [O _]. split; [apply umono_eq; [exact O|intros w Hw; apply X; assumption]|].
    destruct O as (_ & P & ->). clear -P. rewrite <- csumZ_all. induction P as [|[w e] l He Hl IH]; cbn in *; lia. }
  assert (Nu : unorm (map (fun t => (mg (fst t), snd t)) p)).
  { destruct N as (A & D & Z). split; [|split].
    - unfold all_ok. rewrite Forall_map, Forall_forall. intros t Ht. apply E, Ht.
    - clear A Z. induction p as [|t p IH]; [constructor|]. apply (desc_cons (m_gt S)) in D as [D G]. cbn [map]. apply (desc_cons (m_gt uniS)).
      split; [apply IH; first [exact D|intros u w Hu; apply X; right; exact Hu|intros u Hu; apply E; right; exact Hu]|].
      rewrite Forall_map. rewrite Forall_forall in *. intros u Hu. cbn [fst m_gt uniS]. specialize (G u Hu).
      destruct (E t (or_introl eq_refl)) as [Et Pt]. destruct (E u (or_intror Hu)) as [Eu Pu]. rewrite Et, Eu in G.
      destruct (Z.gtb_spec (mg (fst t)) (mg (fst u))) as [|L]; [reflexivity|]. exfalso.
      pose proof (ms_order S (mok vo) sm M1) as HO. destruct (Z.eq_dec (mg (fst t)) (mg (fst u))) as [e|n].
      + rewrite e, (gt_irrefl _ _ HO) in G; [discriminate|]. apply (umono_spec vo v _ Pu).
      + rewrite (gt_asym _ _ HO (umono v (mg (fst u))) (umono v (mg (fst t)))) in G; [discriminate|apply (umono_spec vo v _ Pu)|apply (umono_spec vo v _ Pt)|].
        apply umono_gt; lia.
    - unfold nonzero. rewrite Forall_map. exact Z. }
  change Z.gtb with (m_gt uniS). change Z.eqb with (m_eq uniS).
  rewrite (normalization_id uok (m_gt uniS) (m_eq uniS) K (ms_order uniS uok usm uniS_ok) (ms_eq uniS uok usm uniS_ok) HK usrt _ Nu).
  split; [|exact Nu]. unfold of_upoly. rewrite map_map. cbn [fst snd]. rewrite <- (map_id p) at 2. apply map_ext_in. intros [m c] Ht.
  destruct (E _ Ht) as [Em _]. cbn [fst snd] in *. rewrite <- Em. reflexivity.
Qed.

(** derivative *)
Lemma u_derivative_spec p : unorm p -> unorm (u_derivative K p) /\ req K (uraw (u_derivative K p)) (rderiv K 0%N (uraw p)).
Proof.
  intros N. split.
  - destruct N as (A & D & _). induction p as [|[e c] p IH]; [repeat constructor|].
    inversion A as [|? ? Oe A']; subst. apply (desc_cons (m_gt uniS)) in D as [D G]. specialize (IH A' D).
    unfold u_derivative. cbn [flat_map fst snd]. fold (u_derivative K p). cbn [fst] in Oe, G. unfold uok in Oe.
    destruct (Z.eqb_spec e 0) as [E|E]; [exact IH|]. destruct (is0_spec K HK (cmul K c (cofZ K e))) as [E'|E']; [exact IH|].
    cbn [app]. apply (normal_cons uok (m_gt uniS) K). cbn [fst snd]. split; [unfold uok; lia|]. split; [exact E'|]. split; [|exact IH].
    apply Forall_forall. intros t Ht. unfold u_derivative in Ht. apply in_flat_map in Ht as (u & Hu & Ht).
    rewrite Forall_forall in G. specialize (G u Hu). cbn [m_gt uniS] in *.
    destruct (fst u =? 0); [destruct Ht|]. destruct (is0 K _); [destruct Ht|]. destruct Ht as [<-|[]]. cbn [fst]. lia.
  - unfold u_derivative. apply (graw_rlin usm K HK). intros [e c] Ht. destruct (norm_in uniS uok K p _ N Ht) as [O _]. cbn [fst snd] in *. unfold uok in O.
    rewrite exp_usm. cbn [N.eqb map fst snd]. rewrite Z_N_nat.
    destruct (Z.eqb_spec e 0) as [->|n].
    + cbn [Z.to_nat cnat]. replace (cmul K c (c0 K)) with (c0 K) by ring. symmetry. apply (req_cons_0 K HK).
    + rewrite <- (cofZ_cnat K HK) by lia. destruct (is0_spec K HK (cmul K c (cofZ K e))) as [E|E].
      * rewrite E. symmetry. apply (req_cons_0 K HK).
      * cbn [MonoStruct.graw map fst snd]. apply (req_single K); [|reflexivity]. intros w. rewrite exp_usm. cbn [exp]. rewrite exp_mdrop, exp_usm.
        destruct (N.eqb_spec 0 w) as [e0|n0]; [subst w; cbn; lia|]. destruct (N.eqb_spec w 0); [congruence|reflexivity].
Qed.
(** evaluation *)
Lemma u_assign_spec p a : u_assign K p a = reval K (fun _ => a) (uraw p).
Proof.
  unfold u_assign. rewrite (reval_rsum K).
  assert (G : forall o, fold_left (fun o t => cadd K o (cmul K (snd t) (cpow K a (Z.to_nat (fst t))))) p o = cadd K o (rsum K (meval K (fun _ => a)) (uraw p))).
  { induction p as [|[e c] p IH]; intros o; cbn [fold_left MonoStruct.graw map fst snd rsum]; [ring|].
    rewrite IH. unfold MonoStruct.graw. cbn [rsum]. unfold usm at 2. cbn [meval].
    destruct (Z.eq_dec e 0) as [->|n]; cbn; rewrite ?Z_N_nat; ring. }
  rewrite G. replace (csub K a a) with (c0 K) by ring. ring.
Qed.
End U.
