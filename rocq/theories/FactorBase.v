(** * Signs, leading coefficients and products of lists of polynomials (for Factor.v). *)
From Coq Require Import Ring_theory Ring Setoid Morphisms Znumtheory Sorting.Sorted Permutation.
From Verif Require Import Prelude Coef Spec SpecProofs SpecOps SpecOpsProofs GcdDom GcdPoly GcdMath OrderSpec PairVec PairVecProofs
  Mono MonoStruct MonoStructProofs Heap HeapProofs HeapMulProofs Poly PolyMulProofs Div DivProofs PolyDivProofs Gcd UGcd GcdHom Factor.
Local Open Scope Z_scope.

Local Notation K := Zc.
Local Instance HK : ring_ok K := domain_ring K Zc_domain.
Local Notation HD := Zc_domain.
Local Notation HG := Z_cgcd.
Add Ring Rring : (rring K HK) (setoid (req_equiv K) (rring_ext K HK)).
Local Notation "a == b" := (req K a b) (at level 70).
Local Notation "a %| b" := (rdivides K a b) (at level 70).

(** equal up to sign *)
Definition pm (a b : rpoly Z) : Prop := a == b \/ a == ropp K b.
Lemma pm_refl a : pm a a. Proof. left. reflexivity. Qed.
Lemma pm_req a b : a == b -> pm a b. Proof. left. assumption. Qed.
Lemma pm_sym a b : pm a b -> pm b a.
Proof. intros [E|E]; [left; symmetry; exact E|right]. rewrite E. ring. Qed.
Lemma pm_trans a b c : pm a b -> pm b c -> pm a c.
Proof. intros [E|E] [F|F]; [left|right|right|left]; rewrite E, F; ring. Qed.
Lemma pm_mul a b c d : pm a b -> pm c d -> pm (rmul K a c) (rmul K b d).
Proof. intros [E|E] [F|F]; [left|right|right|left]; rewrite E, F; ring. Qed.
Lemma pm_pow a b n : pm a b -> pm (rpow K a n) (rpow K b n).
Proof. intros H. induction n as [|n IH]; cbn [rpow]; [apply pm_refl|apply pm_mul; assumption]. Qed.
#[global] Instance pm_proper : Proper (req K ==> req K ==> iff) pm.
Proof. intros a a' E b b' F. unfold pm. rewrite E, F. reflexivity. Qed.
#[global] Instance rpow_proper : Proper (req K ==> eq ==> req K) (rpow K).
Proof. intros a b E n n' <-. induction n as [|n IH]; cbn [rpow]; [reflexivity|]. rewrite IH, E. reflexivity. Qed.
Lemma pm_unit a b : (rconst 1 == b \/ rconst (-1) == b) -> pm a (rmul K a b).
Proof.
  intros [E|E]; [left|right]; rewrite <- E.
  - change (rconst 1) with (r1 K). ring.
  - change (rconst (-1)) with (ropp K (r1 K)). ring.
Qed.

Section Base.
Context {M : Type} (S : monos M) (ok : M -> Prop) (sm : M -> smono) (HS : monos_ok S ok sm).
Notation gt := (m_gt S).
Notation poly := (list (M * Z)).
Notation norm := (normal ok gt K).
Notation graw := (MonoStruct.graw sm).

Definition lcp (p : poly) : Z := match p with [] => 0 | t :: _ => snd t end.
Lemma lcp_nz p : norm p -> p <> [] -> lcp p <> 0.
Proof. intros (_ & _ & N) H. destruct p as [|t r]; [congruence|]. apply Forall_inv in N. exact N. Qed.
Lemma gnil p : norm p -> (p = [] <-> graw p == r0).
Proof. intros N. split; [intros ->; reflexivity|]. intros E. apply (gnormal_req S ok sm K HS HK p []); auto. split; [constructor|split; constructor]. Qed.
Lemma gnz p : norm p -> (p <> [] <-> ~ graw p == r0).
Proof. intros N. rewrite (gnil p N). reflexivity. Qed.

(** the leading coefficient of a product *)
Lemma lc_mul a b r : norm a -> norm b -> norm r -> a <> [] -> b <> [] -> graw r == rmul K (graw a) (graw b) -> lcp r = lcp a * lcp b.
Proof.
  intros Na Nb Nr Ha Hb E. destruct a as [|a0 A]; [congruence|]. destruct b as [|b0 B]; [congruence|]. cbn [lcp].
  pose proof (lead_coef_prod S ok sm K HS HK A B a0 b0 Na Nb) as L. cbn [cmul Zc] in L.
  pose proof (ms_order S ok sm HS) as HO. pose proof (ms_mul_ok S ok sm HS) as MO.
  set (P := products (m_mul S) K (a0 :: A) (b0 :: B)) in *. set (m := m_mul S (fst a0) (fst b0)) in *.
  assert (oka : forall t, In t (a0 :: A) -> ok (fst t)) by (intros t Ht; destruct Na as (O & _); unfold all_ok in O; rewrite Forall_forall in O; auto).
  assert (okb : forall t, In t (b0 :: B) -> ok (fst t)) by (intros t Ht; destruct Nb as (O & _); unfold all_ok in O; rewrite Forall_forall in O; auto).
  assert (Om : ok m) by (apply MO; [apply oka|apply okb]; left; reflexivity).
  assert (Okp : all_ok ok P).
  { apply Forall_forall. intros x Hx. unfold P, products in Hx. apply in_flat_map in Hx as (t & Ht & Hx).
    apply in_map_iff in Hx as (w & <- & Hw). cbn. apply MO; auto. }
  assert (Rq : graw r == graw P) by (rewrite E; unfold P; rewrite (products_req S ok sm K HS HK) by (apply Na || apply Nb); reflexivity).
  pose proof (req_csum S ok sm K HS r P m (proj1 Nr) Okp Om Rq) as C. rewrite L in C.
  assert (Nz : snd a0 * snd b0 <> 0).
  { pose proof (lcp_nz _ Na ltac:(discriminate)). pose proof (lcp_nz _ Nb ltac:(discriminate)). cbn [lcp] in *. intros X. apply Z.mul_eq_0 in X. tauto. }
  destruct r as [|t R]; [cbn in C; congruence|]. cbn [lcp].
  assert (Ot : ok (fst t)) by (destruct Nr as (O & _); apply Forall_inv in O; exact O).
  assert (T3 : gt m (fst t) = true \/ m = fst t \/ gt (fst t) m = true) by (destruct (gt_total ok gt HO m (fst t) Om Ot) as [H|[H|H]]; auto).
  destruct T3 as [H|[H|H]].
  - exfalso. rewrite (csum_notin K) in C; [cbn in C; congruence|]. intros x Hx. apply in_map_iff in Hx as (u & <- & Hu).
    destruct (m_eq S m (fst u)) eqn:Ee; [|reflexivity]. exfalso. apply (ms_eq S ok sm HS) in Ee. subst m.
    assert (Ou : ok (fst u)) by (destruct Nr as (O & _); unfold all_ok in O; rewrite Forall_forall in O; auto).
    destruct Hu as [->|Hu].
    + rewrite Ee in H. rewrite (gt_irrefl ok gt HO _ Ou) in H. discriminate.
    + assert (G : gt (fst t) (fst u) = true) by (destruct Nr as (_ & D & _); apply (desc_cons gt) in D as [_ D]; rewrite Forall_forall in D; apply D, Hu).
      rewrite Ee in H. pose proof (gt_trans ok gt HO _ _ _ Ou Ot Ou H G) as X. rewrite (gt_irrefl ok gt HO _ Ou) in X. discriminate.
  - pose proof (csum_eq_head ok gt (m_eq S) K HO (ms_eq S ok sm HS) HK t R Nr) as Hh. rewrite <- H in Hh. congruence.
  - exfalso. pose proof (csum_eq_head ok gt (m_eq S) K HO (ms_eq S ok sm HS) HK t R Nr) as Hh.
    pose proof (req_csum S ok sm K HS (t :: R) P (fst t) (proj1 Nr) Okp Ot Rq) as C'. rewrite Hh in C'.
    rewrite (csum_notin K (m_eq S (fst t)) P) in C'; [exact (lcp_nz _ Nr ltac:(discriminate) C')|].
    intros x Hx. apply in_map_iff in Hx as (u & <- & Hu). destruct (m_eq S (fst t) (fst u)) eqn:Ee; [|reflexivity]. exfalso.
    apply (ms_eq S ok sm HS) in Ee. rewrite Ee in H. unfold P, products in Hu. apply in_flat_map in Hu as (v & Hv & Hu).
    apply in_map_iff in Hu as (w & <- & Hw). cbn [fst] in H.
    assert (Ge1 : gt (fst a0) (fst v) = true \/ fst a0 = fst v).
    { destruct Hv as [->|Hv]; [right; reflexivity|left]. destruct Na as (_ & D & _). apply (desc_cons gt) in D as [_ D]. rewrite Forall_forall in D. apply D, Hv. }
    assert (Ge2 : gt (fst b0) (fst w) = true \/ fst b0 = fst w).
    { destruct Hw as [->|Hw]; [right; reflexivity|left]. destruct Nb as (_ & D & _). apply (desc_cons gt) in D as [_ D]. rewrite Forall_forall in D. apply D, Hw. }
    assert (O1 : ok (fst a0)) by (apply oka; left; reflexivity). assert (O2 : ok (fst b0)) by (apply okb; left; reflexivity).
    pose proof (oka v Hv) as Ov. pose proof (okb w Hw) as Ow.
    assert (G1 : gt m (m_mul S (fst v) (fst b0)) = true \/ m = m_mul S (fst v) (fst b0)).
    { destruct Ge1 as [X|X]; [left; unfold m; apply (ms_gt_mul S ok sm HS); auto|right; unfold m; rewrite X; reflexivity]. }
    assert (G2 : gt (m_mul S (fst v) (fst b0)) (m_mul S (fst v) (fst w)) = true \/ m_mul S (fst v) (fst b0) = m_mul S (fst v) (fst w)).
    { destruct Ge2 as [X|X]; [left; apply (ms_gt_mul_l S ok sm HS); auto|right; rewrite X; reflexivity]. }
    assert (G3 : gt m (m_mul S (fst v) (fst w)) = true \/ m = m_mul S (fst v) (fst w)).
    { destruct G1 as [G1|G1], G2 as [G2|G2]; [left|left; congruence|left; congruence|right; congruence].
      apply (gt_trans ok gt HO m (m_mul S (fst v) (fst b0))); auto. }
    assert (Ovw : ok (m_mul S (fst v) (fst w))) by auto. destruct G3 as [G3|G3].
    + pose proof (gt_trans ok gt HO _ _ _ Ovw Om Ovw H G3) as X. rewrite (gt_irrefl ok gt HO _ Ovw) in X. discriminate.
    + rewrite G3 in H. rewrite (gt_irrefl ok gt HO _ Ovw) in H. discriminate.
Qed.

(** flip *)
Lemma neg_map (p : poly) : map (fun t => (fst t, - snd t)) p = p_neg K p.
Proof. unfold p_neg, pv_negate. apply map_ext. intros [a b]. reflexivity. Qed.
Lemma flip_ok (p : poly) : norm p -> norm (flip p) /\ (p <> [] -> flip p <> [] /\ 0 < lcp (flip p)) /\
  (if lcp p <? 0 then graw (flip p) == ropp K (graw p) else flip p = p).
Proof.
  intros N. destruct p as [|t r]; [split; [exact N|]; split; [congruence|reflexivity]|]. unfold flip. cbn [lcp].
  pose proof (lcp_nz _ N ltac:(discriminate)) as Nz. cbn [lcp] in Nz. destruct (Z.ltb_spec (snd t) 0) as [L|L].
  - rewrite neg_map. split; [apply (p_neg_normal S ok K HK), N|]. split; [intros _; split; [discriminate|cbn; lia]|]. apply (p_neg_req sm K).
  - split; [exact N|]. split; [intros _; split; [discriminate|cbn; lia]|reflexivity].
Qed.
Lemma flip_pm p : norm p -> pm (graw (flip p)) (graw p).
Proof.
  intros N. destruct (flip_ok p N) as (_ & _ & H). destruct (lcp p <? 0); [right; exact H|left; rewrite H; reflexivity].
Qed.
Lemma flip_pos p : norm p -> 0 < lcp p -> flip p = p.
Proof. intros N L. destruct (flip_ok p N) as (_ & _ & H). destruct (Z.ltb_spec (lcp p) 0); [lia|exact H]. Qed.
Lemma pm_pos p q : norm p -> norm q -> 0 < lcp p -> 0 < lcp q -> pm (graw p) (graw q) -> p = q.
Proof.
  intros Np Nq Lp Lq [E|E]; [apply (gnormal_req S ok sm K HS HK); assumption|]. exfalso.
  rewrite <- (p_neg_req sm K) in E. apply (gnormal_req S ok sm K HS HK) in E; [|exact Np|apply (p_neg_normal S ok K HK), Nq].
  subst p. destruct q as [|t q]; cbn in *; lia.
Qed.

(** products *)
Definition lprod (l : list poly) : rpoly Z := fold_right (fun p a => rmul K (graw p) a) (r1 K) l.
Lemma lprod_app l l' : lprod (l ++ l') == rmul K (lprod l) (lprod l').
Proof. unfold lprod. induction l as [|p l IH]; cbn [app fold_right]; [ring|]. rewrite IH. ring. Qed.
Lemma lprod_perm l l' : Permutation l l' -> lprod l == lprod l'.
Proof. unfold lprod. induction 1; cbn [fold_right]; [reflexivity|rewrite IHPermutation; reflexivity|ring|]. etransitivity; eassumption. Qed.
Definition fine (p : poly) : Prop := norm p /\ p <> [].
Lemma prod_fine p q : fine p -> fine q -> exists r, fine r /\ graw r == rmul K (graw p) (graw q) /\ lcp r = lcp p * lcp q.
Proof.
  intros [Np Hp] [Nq Hq]. destruct (p_mul_ok S ok sm K HS HK HD nohook2 p q) as (r & _ & Nr & Er); [split; exact I|assumption..|].
  pose proof (lc_mul p q r Np Nq Nr Hp Hq Er) as L. exists r. split; [split; [exact Nr|]|auto]. intros ->. cbn [lcp] in L.
  pose proof (lcp_nz p Np Hp). pose proof (lcp_nz q Nq Hq). symmetry in L. apply Z.mul_eq_0 in L. tauto.
Qed.
Lemma one_mono : exists r, fine r /\ graw r == r1 K /\ lcp r = 1.
Proof.
  exists [(m_one S, 1)]. split; [split; [|discriminate]|].
  - split; [constructor; [apply (ms_one_ok S ok sm HS)|constructor]|]. split; [repeat constructor|repeat constructor; discriminate].
  - split; [|reflexivity]. apply (req_single K); [|reflexivity]. apply (ms_one S ok sm HS).
Qed.
Lemma flip_fine p : fine p -> fine (flip p) /\ 0 < lcp (flip p).
Proof. intros [N H]. destruct (flip_ok p N) as (A & B & _). destruct (B H). split; [split|]; assumption. Qed.
Lemma pow_fine p n : fine p -> exists r, fine r /\ graw r == rpow K (graw p) n /\ lcp r = lcp p ^ Z.of_nat n.
Proof.
  intros Hp. induction n as [|n IH]; cbn [rpow]; [apply one_mono|]. destruct IH as (r & Hr & Er & Lr).
  destruct (prod_fine p r Hp Hr) as (s & Hs & Es & Ls). exists s. split; [exact Hs|]. split; [rewrite Es, Er; reflexivity|].
  rewrite Ls, Lr, Nat2Z.inj_succ, Z.pow_succ_r by lia. reflexivity.
Qed.
Lemma lprod_fine l : Forall fine l -> exists r, fine r /\ graw r == lprod l /\ (Forall (fun p => 0 < lcp p) l -> 0 < lcp r).
Proof.
  induction 1 as [|p l Hp Hl (r & Hr & Er & Lr)]; [destruct one_mono as (r & A & B & C); exists r; split; [exact A|]; split; [exact B|lia]|].
  destruct (prod_fine p r Hp Hr) as (s & Hs & Es & Ls). exists s. split; [exact Hs|]. split; [rewrite Es, Er; reflexivity|].
  intros F. inversion F; subst. rewrite Ls. apply Z.mul_pos_pos; auto.
Qed.
Lemma lprod_flip l : Forall fine l -> pm (lprod (map flip l)) (lprod l).
Proof. induction 1 as [|p l [Np _] Hl IH]; cbn [map lprod fold_right]; [apply pm_refl|]. apply pm_mul; [apply flip_pm, Np|exact IH]. Qed.
(** a factorization up to sign becomes exact when all signs are made positive *)
Lemma lprod_exact l f : Forall fine l -> fine f -> pm (lprod l) (graw f) -> lprod (map flip l) == graw (flip f).
Proof.
  intros Fl Hf P. assert (Fl' : Forall fine (map flip l)) by (rewrite Forall_map; eapply Forall_impl; [|exact Fl]; intros p Hp; apply flip_fine, Hp).
  destruct (lprod_fine _ Fl') as (r & [Nr Hr] & Er & Lr). rewrite <- Er. destruct (flip_fine f Hf) as [[Nf' Hf'] Lf].
  apply req_equiv. assert (r = flip f) as ->; [|reflexivity].
  apply pm_pos; auto; [apply Lr; rewrite Forall_map; eapply Forall_impl; [|exact Fl]; intros p Hp; apply flip_fine, Hp|].
  rewrite Er. eapply pm_trans; [apply lprod_flip, Fl|]. eapply pm_trans; [exact P|]. apply pm_sym, flip_pm, Hf.
Qed.
End Base.
