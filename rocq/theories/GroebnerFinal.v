(** * Groebner bases: membership, ideal equality, uniqueness of the reduced basis. *)
From Coq Require Import Ring Sorting.Sorted Permutation Setoid Morphisms.
From Verif Require Import Prelude Coef Spec SpecProofs SpecOps SpecOpsProofs OrderSpec PairVec PairVecProofs Mono MonoProofs
  MonoStruct MonoStructProofs Heap HeapProofs HeapMulProofs Poly PolyMulProofs PolyOps MonoOpsProofs Groebner PolyOpsGen PolyOpsProofs MonoGcdProofs AF GroebnerProofs BuchProofs BuchLoop.
Local Open Scope Z_scope.

Section GF.
Context {C : Type} (K : coefs C) (HK : ring_ok K) (HF : field_ok K).
Context (vo : vorder) (Hv : vorder_ok vo) (S : monos mono) (HS : S = lexS vo \/ S = grlexS vo).
Context (psrt : list cpair -> list cpair) (Hps : forall l, Permutation l (psrt l)).
Add Ring Kring4 : (ring_laws K HK).
Add Ring Rring4 : (rring K HK) (setoid (req_equiv K) (rring_ext K HK)).
Notation ok := (mok vo).
Notation gt := (m_gt S).
Notation norm := (normal ok gt K).
Notation R := (graw sm).
Notation req := (req K).
Notation rmul := (rmul K).
Notation dv := (cquo K).
Notation "0c" := (c0 K).
Notation "1c" := (c1 K).
Notation mul := (m_mul S).
Notation dvd a b := (mdivides (sm a) (sm b)).
Notation HM := (HM vo Hv S HS).
Notation gok := (gok K vo S).
Notation pmax := (pmax S).
Notation monic := (monic K).
Notation nf n f G := (normal_form K dv S n f G).
Notation GB := (GB K vo S).
Notation RGB := (RGB K vo S).
Notation ideals G := (ideal K (map (fun g => R g) G)).

Lemma sup_all (ps : list (poly C)) : exists vs, Forall (sup vs) ps.
Proof.
  induction ps as [|p ps [vs H]]; [exists []; constructor|].
  exists (flat_map (fun t => map fst (sm (fst t))) p ++ vs). constructor.
  - apply (sup_ext (flat_map (fun t => map fst (sm (fst t))) p)); [apply incl_appl, incl_refl|apply sup_vars].
  - eapply Forall_impl; [|exact H]. intros q. apply sup_ext. apply incl_appr, incl_refl.
Qed.

(** C31 in terms of the ideal. *)
Lemma nf_final G f : Forall gok G -> norm f ->
  exists r n0, (forall n, (n0 <= n)%nat -> nf n f G = Ok r) /\ norm r /\ irred G r /\ ideals G (rsub K (R f) (R r)) /\
    (forall L, ok L -> pmax L f -> pmax L r).
Proof.
  intros HG Nf. destruct (sup_all (f :: G)) as [vs SV].
  destruct (normal_form_ok K HK HF vo Hv S HS vs G f HG (Forall_inv_tail SV) Nf (Forall_inv SV)) as (r & n0 & E & H).
  exists r, n0. split; [exact E|]. pose proof H as (A & _ & I & P & _). split; [exact A|]. split; [exact I|]. split.
  - apply (nf_ideal K HK vo Hv S HS vs _ G f r); [|exact Nf|exact H]. intros g Hg. apply ideal_gen. apply in_map_iff. exists g. auto.
  - intros L HL HP. apply (P L HL HP).
Qed.

Lemma gb_member vs gs G f : GB vs gs G -> norm f -> ideal K gs (R f) ->
  exists n0, forall n, (n0 <= n)%nat -> nf n f G = Ok [].
Proof.
  intros (HG & _ & _ & HI & HL) Nf If. destruct (nf_final G f HG Nf) as (r & n0 & E & Nr & Ir & Id & _).
  assert (r = []) as ->; [|exists n0; exact E]. destruct r as [|t r]; [reflexivity|exfalso].
  assert (I2 : ideal K gs (R (t :: r))).
  { apply (ideal_eq K gs (rsub K (R f) (rsub K (R f) (R (t :: r))))); [ring|]. apply (ideal_sub K HK); [exact If|].
    apply (ideal_incl K (map (fun g => R g) G)); [|exact Id]. intros g Hg. apply in_map_iff in Hg. destruct Hg as (g0 & <- & Hg). apply HI, Hg. }
  destruct (HL t r Nr I2) as (g & Hg & Dg). unfold irred in Ir. rewrite Forall_forall in Ir. exact (Ir t (or_introl eq_refl) g Hg Dg).
Qed.
Lemma gb_member_conv gs G f n : (forall g, In g G -> ideal K gs (R g)) -> Forall gok G -> norm f -> nf n f G = Ok [] -> ideal K gs (R f).
Proof.
  intros HI HG Nf E. destruct (nf_final G f HG Nf) as (r & n0 & E0 & Nr & Ir & Id & _).
  assert (M : r = []).
  { (* a terminating run gives the same answer with every larger bound *)
    specialize (E0 (Nat.max n n0) ltac:(lia)).
    assert (MON : forall n m h r0 s x, (n <= m)%nat -> nf_loop K dv S n G [] h r0 s = Ok x -> nf_loop K dv S m G [] h r0 s = Ok x).
    { clear. induction n as [|n IH]; intros m h r0 s x Hm Hx; [discriminate|]. destruct m as [|m]; [lia|]. cbn [nf_loop] in *.
      destruct h as [|t h]; [exact Hx|]. destruct (find_red S (fst t) 0 G) as [[[[i q] g]|]| | |]; cbn [obind] in *; try discriminate; apply IH; try lia; exact Hx. }
    unfold normal_form, nf_sugar in E, E0. destruct f as [|t f]; [cbn in E0; congruence|]. destruct G as [|g G]; [cbn in *; congruence|].
    destruct (nf_loop K dv S n (g :: G) [] (t :: f) [] 0) as [x| | |] eqn:EL; try discriminate.
    apply (MON n (Nat.max n n0)) in EL; [|lia]. rewrite EL in E0. cbn in *. congruence. }
  subst r. apply (ideal_incl K (map (fun g => R g) G)); [intros g Hg; apply in_map_iff in Hg; destruct Hg as (g0 & <- & Hg); apply HI, Hg|].
  apply (ideal_eq K _ (rsub K (R f) (R []))); [|exact Id]. change (R (@nil (mono * C))) with (@r0 C). ring.
Qed.

Lemma gb_ideal vs F G : Forall norm F -> GB vs (map (fun f => R f) F) G -> forall p, ideals F p <-> ideals G p.
Proof.
  intros NF HG p. pose proof HG as (GG & _ & _ & HI & _). split; apply ideal_incl.
  - intros x Hx. apply in_map_iff in Hx. destruct Hx as (f & <- & Hf). rewrite Forall_forall in NF.
    destruct (gb_member vs _ G f HG (NF f Hf)) as [n0 E]; [apply ideal_gen, in_map_iff; exists f; auto|].
    apply (gb_member_conv _ G f n0); [|exact GG|exact (NF f Hf)|apply E; lia]. intros g Hg. apply ideal_gen, in_map_iff. exists g. auto.
  - intros x Hx. apply in_map_iff in Hx. destruct Hx as (f & <- & Hf). apply HI, Hf.
Qed.

(** ** uniqueness *)
Lemma dvd_anti a b : ok a -> ok b -> dvd a b -> dvd b a -> a = b.
Proof. intros Ha Hb H1 H2. apply (ms_inj S ok sm HM); [assumption..|]. intros v. specialize (H1 v). specialize (H2 v). lia. Qed.
Lemma dvd_trans a b c : dvd a b -> dvd b c -> dvd a c.
Proof. intros H1 H2 v. specialize (H1 v). specialize (H2 v). lia. Qed.
Lemma dvd_refl a : dvd a a.
Proof. intros v. lia. Qed.
Lemma dvd_ngt a b : ok a -> ok b -> dvd a b -> gt a b = false.
Proof.
  intros Ha Hb H. destruct (qt_spec vo Hv S HS b a Hb Ha H) as [Oq E]. destruct (gt a b) eqn:X; [|reflexivity]. exfalso.
  pose proof (ms_order S ok sm HM) as HO.
  destruct (gt_ge_mul vo Hv S HS (qt S b a) a Oq Ha) as [Y|Y]; rewrite E in Y.
  - subst b. rewrite (gt_irrefl _ _ HO a Ha) in X. discriminate.
  - pose proof (gt_trans _ _ HO a b a Ha Hb Ha X Y) as Z0. rewrite (gt_irrefl _ _ HO a Ha) in Z0. discriminate.
Qed.

Lemma rgb_sep vs gs G g g' t : RGB vs gs G -> In g G -> In g' G -> In t g -> dvd (lm g') (fst t) -> g' = g /\ hd (mono1, 0c) g = t.
Proof.
  intros ((HG & _) & HR) Hg Hg' Ht HD. rewrite Forall_forall in HG. pose proof (HG g Hg) as Gg. pose proof (HG g' Hg') as Gg'.
  apply In_nth_error in Hg. apply In_nth_error in Hg'. destruct Hg as [i Ei]. destruct Hg' as [j Ej].
  destruct (Nat.eq_dec i j) as [->|Hn].
  - assert (g' = g) as -> by congruence. split; [reflexivity|]. destruct g as [|u g]; [destruct Ht|]. cbn [hd lm] in *. destruct Ht as [->|Ht]; [reflexivity|exfalso].
    apply gok_cons in Gg. destruct Gg as (Ou & _ & Mu & Ng). unfold GroebnerProofs.pmax in Mu. rewrite Forall_forall in Mu. specialize (Mu t Ht).
    assert (Ot : ok (fst t)) by (destruct Ng as [A _]; unfold all_ok in A; rewrite Forall_forall in A; apply A, Ht).
    rewrite (dvd_ngt _ _ Ou Ot HD) in Mu. discriminate.
  - exfalso. apply (HR i j g (lm g') t); try assumption; [apply nth_error_Some; congruence|apply map_nth_error, Ej].
Qed.

Lemma norm_ok_in p t : norm p -> In t p -> ok (fst t).
Proof. intros [A _] Ht. unfold all_ok in A. rewrite Forall_forall in A. apply A, Ht. Qed.

(** Two reduced bases of the same ideal have the same elements. *)
Lemma rgb_incl vs1 gs1 G1 vs2 gs2 G2 : (forall p, ideal K gs1 p <-> ideal K gs2 p) -> RGB vs1 gs1 G1 -> RGB vs2 gs2 G2 ->
  forall g, In g G1 -> In g G2.
Proof.
  intros EQ R1 R2 g Hg. pose proof R1 as ((HG1 & MG1 & _ & HI1 & HL1) & _). pose proof R2 as ((HG2 & MG2 & _ & HI2 & HL2) & _).
  rewrite Forall_forall in HG1, HG2, MG1, MG2. pose proof (HG1 g Hg) as Gg. destruct g as [|t g]; [destruct (proj2 Gg eq_refl)|].
  destruct (HL2 t g (proj1 Gg)) as (g2 & Hg2 & D2); [apply EQ, HI1, Hg|]. pose proof (HG2 g2 Hg2) as Gg2.
  destruct g2 as [|t2 g2]; [destruct (proj2 Gg2 eq_refl)|]. cbn [lm] in D2.
  destruct (HL1 t2 g2 (proj1 Gg2)) as (g3 & Hg3 & D3); [apply EQ, HI2, Hg2|]. cbn [lm] in D3.
  destruct (rgb_sep vs1 gs1 G1 (t :: g) g3 t R1 Hg Hg3 (or_introl eq_refl) (dvd_trans _ _ _ D3 D2)) as [-> _].
  cbn [lm] in D3. assert (EL : fst t2 = fst t).
  { apply dvd_anti; try assumption; [apply (norm_ok_in _ _ (proj1 Gg2)); left; reflexivity|apply (norm_ok_in _ _ (proj1 Gg)); left; reflexivity]. }
  assert (EC : snd t = snd t2) by (pose proof (MG1 _ Hg) as X; pose proof (MG2 _ Hg2) as Y; unfold BuchProofs.monic, lc in X, Y; congruence).
  (* the difference is irreducible and in the ideal *)
  set (h := p_sub S K (t :: g) (t2 :: g2)).
  assert (Nh : norm h) by (apply (p_sub_normal S ok sm K HM HK); [apply Gg|apply Gg2]).
  assert (Rh : req (R h) (rsub K (R (t :: g)) (R (t2 :: g2)))) by apply (p_sub_req S ok sm K HM HK).
  assert (h = []) as Eh.
  { destruct h as [|u h'] eqn:Eh; [reflexivity|exfalso].
    assert (Ih : ideal K gs1 (R (u :: h'))).
    { apply (ideal_eq K gs1 (rsub K (R (t :: g)) (R (t2 :: g2)))); [symmetry; exact Rh|]. apply (ideal_sub K HK); [apply HI1, Hg|apply EQ, HI2, Hg2]. }
    assert (Ou : ok (fst u)) by (apply (norm_ok_in _ _ Nh); left; reflexivity).
    assert (Cu : coef K (R (u :: h')) (sm (fst u)) <> 0c) by (rewrite (coef_head K HK vo Hv S HS u h' Nh); apply normal_cons in Nh; apply Nh).
    rewrite (Rh (sm (fst u))) in Cu. unfold rsub, radd in Cu. rewrite (coef_app K HK), (coef_opp K HK) in Cu.
    (* u's monomial occurs in the tail of one of the two *)
    assert (OCC : forall w p, norm (w :: p) -> fst u <> fst w -> coef K (R (w :: p)) (sm (fst u)) <> 0c -> exists x, In x p /\ fst x = fst u).
    { intros w p Np Hn Hc. apply (norm_supp S ok sm K HM HK (w :: p)) in Hc; [|exact Np]. destruct Hc as (x & [Hx|Hx] & Ex).
      - subst x. exfalso. apply Hn. symmetry. apply (ms_inj S ok sm HM); try assumption. apply (norm_ok_in _ _ Np). left. reflexivity.
      - exists x. split; [exact Hx|]. apply (ms_inj S ok sm HM); try assumption. apply (norm_ok_in _ _ Np). right. exact Hx. }
    assert (NE : fst u <> fst t).
    { intros Y. apply Cu. rewrite Y. rewrite (coef_head K HK vo Hv S HS t g (proj1 Gg)). rewrite <- EL. rewrite (coef_head K HK vo Hv S HS t2 g2 (proj1 Gg2)). rewrite EC. ring. }
    destruct (HL1 u h' Nh Ih) as (b & Hb & Db). destruct (HL2 u h' Nh (proj1 (EQ _) Ih)) as (b2 & Hb2 & Db2).
    assert (TW : coef K (R (t :: g)) (sm (fst u)) <> 0c \/ coef K (R (t2 :: g2)) (sm (fst u)) <> 0c).
    { destruct (c0_dec K HK (coef K (R (t :: g)) (sm (fst u)))) as [Y|Y]; [|left; exact Y]. right. intros Y2. apply Cu. rewrite Y, Y2. ring. }
    destruct TW as [Y|Y].
    - destruct (OCC t g (proj1 Gg) NE Y) as (x & Hx & Ex). rewrite <- Ex in Db.
      destruct (rgb_sep vs1 gs1 G1 (t :: g) b x R1 Hg Hb (or_intror Hx) Db) as [_ Z0]. cbn [hd] in Z0. subst x. apply NE. symmetry. exact Ex.
    - rewrite <- EL in NE. destruct (OCC t2 g2 (proj1 Gg2) NE Y) as (x & Hx & Ex). rewrite <- Ex in Db2.
      destruct (rgb_sep vs2 gs2 G2 (t2 :: g2) b2 x R2 Hg2 Hb2 (or_intror Hx) Db2) as [_ Z0]. cbn [hd] in Z0. subst x. apply NE. symmetry. exact Ex. }
  rewrite Eh in Rh. assert (EG : t :: g = t2 :: g2).
  { apply (gnormal_req S ok sm K HM HK); [apply Gg|apply Gg2|]. transitivity (radd (rsub K (R (t :: g)) (R (t2 :: g2))) (R (t2 :: g2))); [ring|].
    rewrite <- Rh. change (R (@nil (mono * C))) with (@r0 C). ring. }
  rewrite EG. exact Hg2.
Qed.
Lemma rgb_nodup vs gs G : RGB vs gs G -> NoDup G.
Proof.
  intros ((HG & _) & HR). apply NoDup_nth_error. intros i j Hi E. destruct (Nat.eq_dec i j) as [->|Hn]; [reflexivity|exfalso].
  destruct (nth_error G i) as [g|] eqn:Ei; [|apply nth_error_Some in Hi; congruence].
  rewrite Forall_forall in HG. pose proof (HG g (nth_error_In _ _ Ei)) as Gg. destruct g as [|t g]; [destruct (proj2 Gg eq_refl)|].
  apply (HR i j (t :: g) (fst t) t); try assumption; [rewrite E in Ei|left; reflexivity|apply dvd_refl].
  symmetry in E. apply (map_nth_error lm) in E. exact E.
Qed.
Theorem rgb_unique vs1 gs1 G1 vs2 gs2 G2 : (forall p, ideal K gs1 p <-> ideal K gs2 p) -> RGB vs1 gs1 G1 -> RGB vs2 gs2 G2 -> Permutation G1 G2.
Proof.
  intros EQ R1 R2. apply NoDup_Permutation; [apply (rgb_nodup _ _ _ R1)|apply (rgb_nodup _ _ _ R2)|]. intros g. split.
  - apply (rgb_incl vs1 gs1 G1 vs2 gs2 G2 EQ R1 R2).
  - apply (rgb_incl vs2 gs2 G2 vs1 gs1 G1); auto. intros p. symmetry. apply EQ.
Qed.
End GF.
