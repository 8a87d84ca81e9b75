(** * Polynomial addition, multiplication and powers compute the ring operations. *)
From Coq Require Import Ring Sorting.Sorted Permutation Setoid Morphisms.
From Verif Require Import Prelude Coef Spec SpecProofs OrderSpec PairVec PairVecProofs Heap HeapProofs
  HeapMulProofs MonoStruct MonoStructProofs Poly.

Section PolyMul.
Context {M C : Type} (S : monos M) (ok : M -> Prop) (sm : M -> smono) (K : coefs C).
Context (HS : monos_ok S ok sm) (HK : ring_ok K).
Add Ring Kring : (ring_laws K HK).
Add Ring Rring : (rring K HK) (setoid (req_equiv K) (rring_ext K HK)).
Notation gt := (m_gt S).
Notation poly := (list (M * C)).
Notation norm := (normal ok gt K).
Notation graw := (graw sm).
Notation req := (req K).
Notation rmul := (rmul K).

Lemma req_of_csum (p q : poly) : (forall phi, csum K phi p = csum K phi q) -> req (graw p) (graw q).
Proof. apply csum_graw. Qed.

Lemma p_add_req p q : req (graw (p_add S K p q)) (radd (graw p) (graw q)).
Proof.
  unfold radd. rewrite <- graw_app. apply req_of_csum. intros phi.
  rewrite (csum_app K HK). apply (csum_add gt (m_eq S) K (ms_eq S ok sm HS) HK).
Qed.
Lemma p_add_normal p q : norm p -> norm q -> norm (p_add S K p q).
Proof. apply (normal_add ok gt (m_eq S) K (ms_order S ok sm HS) (ms_eq S ok sm HS) HK). Qed.
Lemma p_neg_req p : req (graw (p_neg K p)) (ropp K (graw p)).
Proof. unfold p_neg. rewrite (graw_negate sm K). reflexivity. Qed.
Lemma p_neg_normal p : norm p -> norm (p_neg K p).
Proof. apply (normal_negate ok gt K HK). Qed.
Lemma p_sub_req p q : req (graw (p_sub S K p q)) (rsub K (graw p) (graw q)).
Proof.
  unfold p_sub. rewrite (pv_sub_add gt (m_eq S) K HK).
  rewrite (p_add_req p (pv_negate K q)). unfold rsub. rewrite (graw_negate sm K). reflexivity.
Qed.
Lemma p_sub_normal p q : norm p -> norm q -> norm (p_sub S K p q).
Proof. apply (normal_sub ok gt (m_eq S) K (ms_order S ok sm HS) (ms_eq S ok sm HS) HK). Qed.

(** all pairwise products, as a specification product *)
Lemma products_req (p q : poly) : all_ok ok p -> all_ok ok q ->
  req (graw (products (m_mul S) K p q)) (rmul (graw p) (graw q)).
Proof.
  intros Hp Hq m. induction Hp as [|t p Ht Hp IH].
  - reflexivity.
  - unfold products. cbn [flat_map]. rewrite graw_app.
    change (graw (t :: p)) with ((sm (fst t), snd t) :: graw p).
    unfold Spec.rmul. cbn [flat_map]. rewrite !(coef_app K HK). f_equal; [|exact IH].
    clear IH. cbn [fst snd]. induction Hq as [|u q Hu Hq IHq]; [reflexivity|].
    cbn [map MonoStruct.graw]. cbn [fst snd Spec.coef].
    assert (E : meqb (sm (m_mul S (fst t) (fst u))) m = meqb (sm (fst t) ++ sm (fst u)) m).
    { pose proof (ms_mul S ok sm HS _ _ Ht Hu) as E.
      destruct (meqb_spec (sm (m_mul S (fst t) (fst u))) m) as [H1|H1],
               (meqb_spec (sm (fst t) ++ sm (fst u)) m) as [H2|H2]; try reflexivity; exfalso.
      - apply H2. intros v. rewrite <- (E v). apply H1.
      - apply H1. intros v. rewrite (E v). apply H2. }
    rewrite E. unfold MonoStruct.graw in IHq. rewrite IHq. reflexivity.
Qed.

Definition comp_good (compress : poly -> poly -> outcome (option poly)) (v1 v2 : poly) : Prop :=
  match compress v1 v2 with
  | Ok None => True
  | Ok (Some out) => norm out /\ req (graw out) (rmul (graw v1) (graw v2))
  | _ => False
  end.

Lemma norm_nil : norm [].
Proof. split; [constructor|split; constructor]. Qed.

Lemma norm_scale_mono (HD : domain_ok K) (t : M * C) q : ok (fst t) -> snd t <> c0 K -> norm q ->
  norm (map (fun u => (m_mul S (fst t) (fst u), cmul K (snd t) (snd u))) q).
Proof.
  intros Ht Hc (Hok & Hd & Hnz). split; [|split].
  - unfold all_ok in *. rewrite Forall_map. eapply Forall_impl; [|exact Hok]. intros u Hu.
    apply (ms_mul_ok S ok sm HS); assumption.
  - unfold desc in *. rewrite map_map. cbn [fst].
    clear Hnz. induction q as [|u q IH]; cbn [map]; [constructor|].
    inversion Hok as [|? ? Hu Hok']; subst. cbn [map] in Hd. inversion Hd as [|? ? Hd' Hf]; subst.
    constructor; [apply IH; assumption|]. rewrite Forall_map in *. rewrite Forall_forall in *.
    intros w Hw. apply (ms_gt_mul_l S ok sm HS); [exact Hu|apply Hok'; exact Hw|exact Ht|apply Hf, Hw].
  - unfold nonzero in *. rewrite Forall_map. eapply Forall_impl; [|exact Hnz]. intros u Hu E. cbn [snd] in E.
    destruct (domain_integral K HD _ _ E); contradiction.
Qed.

Lemma mul_heap_ok v1 v2 : norm v1 -> norm v2 -> 0 < length v1 -> 0 < length v2 ->
  exists res, heap_mul gt (m_eq S) (m_mul S) K v1 v2 = Ok res /\ norm res /\
    req (graw res) (rmul (graw v1) (graw v2)).
Proof.
  intros H1 H2 L1 L2.
  assert (Hd : exists d : M * C, True) by (destruct v1 as [|d ?]; [simpl in L1; lia|exists d; exact I]).
  destruct Hd as [d _]. pose proof H1 as (O1 & D1 & _). pose proof H2 as (O2 & D2 & _).
  unfold all_ok in O1, O2. rewrite Forall_forall in O1, O2.
  assert (A1 : forall i, i < length v1 -> ok (fst (nth i v1 d))) by (intros; apply O1, nth_In; assumption).
  assert (A2 : forall i, i < length v2 -> ok (fst (nth i v2 d))) by (intros; apply O2, nth_In; assumption).
  destruct (heap_mul_ok ok gt (m_eq S) (m_mul S) K (ms_order S ok sm HS) (ms_eq S ok sm HS) HK v1 v2 d)
    as (res & E & Hn & Hcs).
  - intros i j Hi Hj. apply (ms_mul_ok S ok sm HS); auto.
  - intros i j j' Hi Hj Hj'. apply (ms_gt_mul_l S ok sm HS); [apply A2; lia|apply A2; lia|apply A1; lia|].
    apply (desc_nth gt v2 j j' d D2); assumption.
  - intros i i' j Hi Hi' Hj. apply (ms_gt_mul S ok sm HS); [apply A1; lia|apply A1; lia|apply A2; lia|].
    apply (desc_nth gt v1 i i' d D1); assumption.
  - exact L2.
  - exact L1.
  - exists res. split; [exact E|]. split; [exact Hn|].
    rewrite (req_of_csum _ _ Hcs). apply products_req; [apply H1|apply H2].
Qed.

Theorem p_mul_ok (HD : domain_ok K) compress v1 v2 :
  (comp_good compress v1 v2 /\ comp_good compress v2 v1) -> norm v1 -> norm v2 ->
  exists res, p_mul S K compress v1 v2 = Ok res /\ norm res /\ req (graw res) (rmul (graw v1) (graw v2)).
Proof.
  assert (G : forall v1 v2, comp_good compress v1 v2 -> norm v1 -> norm v2 -> length v1 <= length v2 ->
     exists res,
     match v1 with
     | [] => Ok []
     | [t] => Ok (map (fun u => (m_mul S (fst t) (fst u), cmul K (snd t) (snd u))) v2)
     | _ => r <- compress v1 v2 ;;
            match r with Some out => Ok out | None => heap_mul gt (m_eq S) (m_mul S) K v1 v2 end
     end = Ok res /\ norm res /\ req (graw res) (rmul (graw v1) (graw v2))).
  { clear v1 v2. intros v1 v2 HC H1 H2 HL. destruct v1 as [|t [|t' r]].
    - exists []. split; [reflexivity|]. split; [apply norm_nil|]. reflexivity.
    - eexists. split; [reflexivity|]. split.
      + destruct H1 as (O1 & _ & N1). inversion O1; inversion N1; subst. apply norm_scale_mono; assumption.
      + rewrite <- products_req; [|apply H1|apply H2]. unfold products. cbn [flat_map]. rewrite app_nil_r. reflexivity.
    - unfold comp_good in HC. destruct (compress (t :: t' :: r) v2) as [[out|]| | |]; try contradiction.
      + cbn [obind]. exists out. split; [reflexivity|exact HC].
      + cbn [obind]. apply mul_heap_ok; [assumption|assumption|simpl; lia|simpl in HL; lia]. }
  intros [HC1 HC2] H1 H2. unfold p_mul, pair_vec_multiplies.
  destruct (Nat.ltb_spec (length v2) (length v1)) as [L|L].
  - destruct (G v2 v1 HC2 H2 H1 ltac:(lia)) as (res & E & Hn & Hr). exists res. split; [exact E|]. split; [exact Hn|].
    rewrite Hr. apply (rmul_comm K HK).
  - apply G; assumption.
Qed.

(** ** Powers *)
Lemma rpow_add p n m : req (rpow K p (n + m)) (rmul (rpow K p n) (rpow K p m)).
Proof.
  induction n as [|n IH]; cbn [Nat.add rpow].
  - rewrite (rmul_1_l K HK). reflexivity.
  - rewrite IH. ring.
Qed.
Lemma rpow_sq p n : req (rpow K (rmul p p) n) (rpow K p (2 * n)).
Proof.
  induction n as [|n IH]; [reflexivity|]. replace (2 * Datatypes.S n) with (2 + 2 * n) by lia.
  rewrite rpow_add. cbn [rpow]. rewrite IH. ring.
Qed.
Global Instance rpow_proper : Proper (req ==> eq ==> req) (rpow K).
Proof.
  intros p q Hpq n ? <-. induction n as [|n IH]; cbn [rpow]; [reflexivity|]. rewrite IH, Hpq. reflexivity.
Qed.

Definition comp_all (compress : poly -> poly -> outcome (option poly)) : Prop :=
  forall v1 v2, norm v1 -> norm v2 -> comp_good compress v1 v2.

Lemma power_loop_ok (HD : domain_ok K) compress (HC : comp_all compress) fuel : forall init p b i,
  (0 <= i)%Z -> (i < 2 ^ (Z.of_nat fuel - 1))%Z -> 0 < fuel -> norm p -> (b = false -> norm init) ->
  (b = true -> (0 < i)%Z) ->
  exists res, power_loop S K compress fuel init p b i = Ok res /\ norm res /\
   req (graw res) (if b then rpow K (graw p) (Z.to_nat i) else rmul (graw init) (rpow K (graw p) (Z.to_nat i))).
Proof.
  assert (MUL : forall v1 v2, norm v1 -> norm v2 ->
    exists res, p_mul S K compress v1 v2 = Ok res /\ norm res /\ req (graw res) (rmul (graw v1) (graw v2))).
  { intros v1 v2 H1 H2. apply p_mul_ok; [exact HD| |exact H1|exact H2]. split; apply HC; assumption. }
  induction fuel as [|f IH]; intros init p b i Hi Hf H0 Hp Hinit Hb; [lia|].
  cbn [power_loop]. destruct (Z.eqb_spec i 0) as [->|Hi0].
  - destruct b; [specialize (Hb eq_refl); lia|]. exists init. split; [reflexivity|].
    split; [apply Hinit; reflexivity|]. cbn [Z.to_nat rpow]. ring.
  - assert (Hf0 : 0 < f).
    { destruct f; [|lia]. change (Z.of_nat 1 - 1)%Z with 0%Z in Hf. simpl in Hf. lia. }
    rewrite Z.shiftr_div_pow2 by lia. change (2 ^ 1)%Z with 2%Z.
    pose proof (Z.div_mod i 2 ltac:(lia)) as Hdm. pose proof (Z.mod_pos_bound i 2 ltac:(lia)) as Hmb.
    rewrite (Z.rem_mod_nonneg i 2) by lia.
    set (h := (i / 2)%Z) in *.
    assert (Hh : (0 <= h)%Z) by lia.
    assert (Hhf : (h < 2 ^ (Z.of_nat f - 1))%Z).
    { replace (Z.of_nat (Datatypes.S f) - 1)%Z with (Z.succ (Z.of_nat f - 1))%Z in Hf by lia.
      rewrite Z.pow_succ_r in Hf by lia. lia. }
    assert (Eh : Z.to_nat i = 2 * Z.to_nat h + Z.to_nat (i mod 2)) by lia.
    (* first phase *)
    assert (ST : exists init' b',
      (if negb (i mod 2 =? 0)%Z then
             if b then Ok (p, false) else (t <- p_mul S K compress init p ;; Ok (t, false))
           else Ok (init, b)) = Ok (init', b') /\
      (b' = false -> norm init') /\ (b' = true -> (0 < h)%Z) /\
      req (if b' then rpow K (graw p) (2 * Z.to_nat h) else rmul (graw init') (rpow K (graw p) (2 * Z.to_nat h)))
          (if b then rpow K (graw p) (Z.to_nat i) else rmul (graw init) (rpow K (graw p) (Z.to_nat i)))).
    { destruct (Z.eqb_spec (i mod 2) 0) as [E|E]; cbn [negb].
      - exists init, b. split; [reflexivity|]. split; [exact Hinit|]. split; [intros Hb'; specialize (Hb Hb'); lia|].
        rewrite Eh, E. cbn [Z.to_nat]. rewrite Nat.add_0_r. reflexivity.
      - assert (E1 : (i mod 2 = 1)%Z) by lia.
        assert (Eh' : Z.to_nat i = 1 + 2 * Z.to_nat h) by lia.
        destruct b.
        + exists p, false. split; [reflexivity|]. split; [intros _; exact Hp|]. split; [discriminate|].
          rewrite Eh'. rewrite (rpow_add _ 1). cbn [rpow]. ring.
        + destruct (MUL init p (Hinit eq_refl) Hp) as (t & Et & Nt & Rt). rewrite Et. cbn [obind].
          exists t, false. split; [reflexivity|]. split; [intros _; exact Nt|]. split; [discriminate|].
          rewrite Eh', Rt, (rpow_add _ 1). cbn [rpow]. ring. }
    destruct ST as (init' & b' & -> & Hi' & Hb' & Hr). cbn [obind].
    destruct (Z.eqb_spec h 0) as [Eh0|Eh0]; cbn [negb].
    + cbn [obind]. destruct (IH init' p b' h Hh Hhf Hf0 Hp Hi' Hb') as (res & E & Hn & Hq).
      exists res. split; [exact E|]. split; [exact Hn|]. rewrite Hq, <- Hr, Eh0.
      destruct b'; reflexivity.
    + destruct (MUL p p Hp Hp) as (pp & Ep & Np & Rp). rewrite Ep. cbn [obind].
      destruct (IH init' pp b' h Hh Hhf Hf0 Np Hi' Hb') as (res & E & Hn & Hq).
      exists res. split; [exact E|]. split; [exact Hn|]. rewrite Hq, <- Hr.
      destruct b'; rewrite Rp, rpow_sq; reflexivity.
Qed.

Lemma norm_one (HD : domain_ok K) : norm [(m_one S, c1 K)].
Proof.
  split; [|split].
  - constructor; [apply (ms_one_ok S ok sm HS)|constructor].
  - constructor; constructor.
  - constructor; [apply (domain_nontrivial K HD)|constructor].
Qed.
Lemma graw_one : req (graw [(m_one S, c1 K)]) (r1 K).
Proof.
  intros m. cbn [MonoStruct.graw map fst snd r1 rconst Spec.coef].
  replace (meqb (sm (m_one S)) m) with (meqb [] m); [reflexivity|].
  destruct (meqb_spec [] m) as [A|A], (meqb_spec (sm (m_one S)) m) as [B|B]; try reflexivity; exfalso.
  - apply B. intros v. rewrite (exp_ms_one S ok sm HS). apply A.
  - apply A. intros v. rewrite <- (B v). rewrite (exp_ms_one S ok sm HS). reflexivity.
Qed.

(** [pow(p, i)] for every [i >= 0] (an int64_t: 64 loop iterations suffice). *)
Theorem p_pow_ok (HD : domain_ok K) compress (HC : comp_all compress) p i : norm p ->
  (0 <= i < 2 ^ 63)%Z ->
  exists res, p_pow S K compress 64 (Some (c1 K)) p i = Ok res /\ norm res /\
    req (graw res) (rpow K (graw p) (Z.to_nat i)).
Proof.
  intros Hp Hi. unfold p_pow.
  assert (MUL : forall v1 v2, norm v1 -> norm v2 ->
    exists res, p_mul S K compress v1 v2 = Ok res /\ norm res /\ req (graw res) (rmul (graw v1) (graw v2))).
  { intros v1 v2 H1 H2. apply p_mul_ok; [exact HD| |exact H1|exact H2]. split; apply HC; assumption. }
  destruct (Z.ltb_spec i 0) as [|_]; [lia|].
  destruct p as [|t p].
  { destruct (Z.eqb_spec i 0) as [->|Hi0].
    - eexists. split; [reflexivity|]. split; [apply norm_one, HD|]. apply graw_one.
    - exists []. split; [reflexivity|]. split; [apply norm_nil|].
      destruct (Z.to_nat i) as [|n] eqn:E; [lia|]. reflexivity. }
  set (q := t :: p) in *. clearbody q.
  destruct (Z.eqb_spec i 0) as [->|Hi0].
  { eexists. split; [reflexivity|]. split; [apply norm_one, HD|]. apply graw_one. }
  destruct (Z.eqb_spec i 1) as [->|Hi1].
  { exists q. split; [reflexivity|]. split; [exact Hp|]. change (Z.to_nat 1) with 1. cbn [rpow]. ring. }
  destruct (Z.eqb_spec i 2) as [->|Hi2].
  { destruct (MUL q q Hp Hp) as (r & E & N & R). exists r. split; [exact E|]. split; [exact N|].
    change (Z.to_nat 2) with 2. cbn [rpow]. rewrite R. ring. }
  destruct (Z.eqb_spec i 3) as [->|Hi3].
  { destruct (MUL q q Hp Hp) as (r & E & N & R). rewrite E. cbn [obind].
    destruct (MUL r q N Hp) as (r' & E' & N' & R'). exists r'. split; [exact E'|]. split; [exact N'|].
    change (Z.to_nat 3) with 3. cbn [rpow]. rewrite R', R. ring. }
  unfold pair_vec_power.
  destruct (Z.eqb_spec i 0) as [|_]; [contradiction|]. destruct (Z.eqb_spec i 1) as [|_]; [contradiction|].
  apply (power_loop_ok HD compress HC 64 _ q true i); try assumption; try lia.
Qed.
End PolyMul.
