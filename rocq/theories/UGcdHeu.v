(** * GCDHEU (UGcd.v, [gcdheu]): a returned polynomial divides both operands and has maximal degree.

    The evaluation point is a power of two above the root bounds of both operands, so the symmetric digits of the
    integer gcd are exact, and a cofactor of positive degree would take a value larger than the content. *)
From Coq Require Import Ring_theory Ring Setoid Morphisms Znumtheory Sorting.Sorted.
From Verif Require Import Prelude Coef Spec SpecProofs SpecOps SpecOpsProofs GcdDom GcdPoly GcdMath OrderSpec PairVec PairVecProofs
  Mono MonoStruct MonoStructProofs Heap Poly PolyMulProofs Div PolyDivProofs PolyOps PolyOpsGen ConvertProofs GcdHom GcdRep Zp NumSpec ZpProofs
  Gcd GcdTerm GcdProofs Dense DenseSparse RootBound UGcd UGcdBase UGcdProofs.
Local Open Scope Z_scope.

Local Notation K := Zc.
Local Notation HD := Zc_domain.
Local Notation HG := Z_cgcd.
Local Instance HK : ring_ok K := domain_ring K Zc_domain.
Add Ring Rring : (rring K HK) (setoid (req_equiv K) (rring_ext K HK)).
Local Notation norm := (normal uok (m_gt uniS) K).
Local Notation graw := (graw usm).
Local Notation "a == b" := (req K a b) (at level 70).
Local Notation "a %| b" := (rdivides K a b) (at level 70).

(** ** values *)
Definition val (xi : Z) (p : rpoly Z) : Z := reval K (fun _ => xi) p.
Lemma cpow_pow a n : cpow K a n = a ^ Z.of_nat n.
Proof.
  induction n as [|n IH]; [reflexivity|]. rewrite Nat2Z.inj_succ, Z.pow_succ_r by lia. cbn [cpow cmul Zc] in *. rewrite IH. reflexivity.
Qed.
Lemma val_cons xi t F : 0 <= fst t -> val xi (graw (t :: F)) = snd t * xi ^ fst t + val xi (graw F).
Proof.
  intros H. unfold val. cbn [MonoStruct.graw map reval meval usm cadd cmul c1 Zc fst snd]. rewrite cpow_pow, Z_N_nat, Z2Nat.id by exact H. cbn [cmul Zc]. unfold MonoStruct.graw. ring.
Qed.
Lemma val_mul xi a b : val xi (rmul K a b) = val xi a * val xi b.
Proof. apply (reval_mul K HK). Qed.
Lemma val_proper xi a b : a == b -> val xi a = val xi b.
Proof. intros E. apply (reval_proper K HK). exact E. Qed.
Lemma val_const xi c : val xi (rconst c) = c.
Proof. unfold val. cbn. ring. Qed.

(** ** Horner's rule on the dense array *)
Fixpoint hsum (xi : Z) (l : list Z) : Z := match l with [] => 0 | c :: l => c + xi * hsum xi l end.
Lemma horner_hsum xi l : horner xi l = hsum xi l.
Proof.
  unfold horner. induction l as [|c l IH]; [reflexivity|]. cbn [rev hsum]. rewrite fold_left_app. cbn [fold_left]. rewrite IH. ring.
Qed.
Lemma hsum_set xi i : forall l x, (i < length l)%nat -> nth i l 0 = 0 -> hsum xi (set_nth i l x) = hsum xi l + x * xi ^ Z.of_nat i.
Proof.
  induction i as [|i IH]; intros [|a l] x L N; cbn [length] in L; try lia; cbn [set_nth hsum].
  - cbn [nth] in N. subst a. cbn [Z.of_nat]. rewrite Z.pow_0_r. ring.
  - rewrite (IH l x ltac:(lia) N), Nat2Z.inj_succ, Z.pow_succ_r by lia. ring.
Qed.
Lemma hsum_zero xi n : hsum xi (repeat 0 n) = 0.
Proof. induction n as [|n IH]; cbn [repeat hsum]; [reflexivity|rewrite IH; ring]. Qed.
Lemma hfold xi B (F : upz) : norm F -> 0 <= B -> (forall t, In t F -> Z.abs (snd t) <= B) -> forall l,
  (forall t, In t F -> (Z.to_nat (fst t) < length l)%nat /\ nth (Z.to_nat (fst t)) l 0 = 0) -> Forall (fun c => Z.abs c <= B) l ->
  let l' := fold_left (fun l u => set_nth (Z.to_nat (fst u)) l (snd u)) F l in
  length l' = length l /\ hsum xi l' = hsum xi l + val xi (graw F) /\ Forall (fun c => Z.abs c <= B) l'.
Proof.
  induction F as [|[e c] F IH]; intros N HB Bd l H Fl; cbv zeta; cbn [fold_left fst snd].
  - split; [reflexivity|]. split; [|exact Fl]. change (val xi (graw [])) with 0. ring.
  - pose proof (unin K _ _ N (or_introl eq_refl)) as [Oe _]. cbn [fst] in Oe.
    destruct (H (e, c) (or_introl eq_refl)) as [Hl Hn]. cbn [fst] in Hl, Hn.
    assert (Gt : forall t, In t F -> 0 <= fst t < e) by (intros t Ht; apply (uhead_lt K (e, c) F t N Ht)).
    assert (Bc : Z.abs c <= B) by (apply (Bd (e, c)); left; reflexivity).
    destruct (IH (unorm_tl K _ _ N) HB (fun t Ht => Bd t (or_intror Ht)) (set_nth (Z.to_nat e) l c)) as (A1 & A2 & A3).
    + intros t Ht. rewrite set_nth_length, set_nth_nth. destruct (H t (or_intror Ht)) as [B1 B2]. split; [exact B1|].
      specialize (Gt t Ht). destruct (Nat.eqb_spec (Z.to_nat e) (Z.to_nat (fst t))); [lia|exact B2].
    + clear -Fl Bc. generalize (Z.to_nat e). intros i. revert i. induction Fl as [|a l Ha Fl IHl]; intros [|i]; cbn [set_nth]; constructor; auto.
    + rewrite set_nth_length in A1. split; [exact A1|]. split; [|exact A3]. rewrite A2, hsum_set, val_cons by assumption. cbn [fst snd]. rewrite Z2Nat.id by exact Oe. ring.
Qed.
Lemma udense_ok xi B t (r : upz) : let F := t :: r in norm F -> 0 <= B -> (forall u, In u F -> Z.abs (snd u) <= B) ->
  horner xi (udense F) = val xi (graw F) /\ length (udense F) = (Z.to_nat (fst t) + 1)%nat /\ Forall (fun c => Z.abs c <= B) (udense F).
Proof.
  intros F N HB Bd. unfold udense, of_sparse. cbn [F]. fold F.
  destruct (hfold xi B F N HB Bd (repeat 0 (Z.to_nat (fst t) + 1))) as (A1 & A2 & A3).
  - intros u Hu. rewrite repeat_length. split; [|apply nth_repeat]. destruct Hu as [<-|Hu]; [lia|]. pose proof (uhead_lt K t r u N Hu). lia.
  - apply Forall_forall. intros x Hx. apply repeat_spec in Hx. subst x. exact HB.
  - rewrite horner_hsum, A2, hsum_zero. split; [ring|]. split; [rewrite A1; apply repeat_length|exact A3].
Qed.

(** ** bounds *)
Fixpoint sbound (xi : Z) (n : nat) : Z := match n with O => 0 | S n => xi * sbound xi n + (xi / 2 - 1) end.
Lemma hsum_bound xi l : 2 <= xi -> Forall (fun c => Z.abs c <= xi / 2 - 1) l -> Z.abs (hsum xi l) <= sbound xi (length l).
Proof. intros Hx. induction 1 as [|c l Hc Fl IH]; cbn [hsum length sbound]; [cbn; lia|]. nia. Qed.
Lemma sbound_nonneg xi n : 2 <= xi -> 0 <= sbound xi n.
Proof. intros Hx. induction n as [|n IH]; cbn [sbound]; [lia|]. assert (1 <= xi / 2) by (apply Z.div_le_lower_bound; lia). nia. Qed.

(** ** symmetric digits *)
Lemma land_mask k g : 0 <= k -> Z.land g (2 ^ k - 1) = g mod 2 ^ k.
Proof. intros Hk. replace (2 ^ k - 1) with (Z.ones k) by (rewrite Z.ones_equiv; lia). apply Z.land_ones, Hk. Qed.
Lemma digits_ok k : 1 <= k -> forall n i g, 0 <= i -> 0 <= g <= sbound (2 ^ k) n ->
  let D := digits n k i g in
  norm (rev D) /\ (forall t, In t D -> i <= fst t < i + Z.of_nat n /\ Z.abs (snd t) <= 2 ^ k / 2) /\ val (2 ^ k) (graw (rev D)) = g * (2 ^ k) ^ i.
Proof.
  intros Hk. set (xi := 2 ^ k). assert (Hx : 2 <= xi) by (unfold xi; apply (Z.pow_le_mono_r 2 1 k); lia).
  assert (Ex : xi = 2 * (xi / 2)).
  { unfold xi. replace k with (1 + (k - 1)) by lia. rewrite Z.pow_add_r by lia. rewrite Z.pow_1_r, (Z.mul_comm 2 (2 ^ (k-1))), Z.div_mul by lia. lia. }
  induction n as [|n IH]; intros i g Hi Hg; cbv zeta; cbn [digits].
  - cbn [sbound] in Hg. assert (g = 0) as -> by lia. split; [split; [constructor|split; constructor]|]. split; [intros t []|]. reflexivity.
  - destruct (Z.eqb_spec g 0) as [->|Ng]; [split; [split; [constructor|split; constructor]|]; split; [intros t []|reflexivity]|].
    rewrite land_mask by lia. rewrite Z.shiftr_div_pow2 by lia. rewrite Z.quot_div_nonneg by (fold xi; lia). fold xi.
    assert (X : exists r q, (if g mod xi >? xi / 2 then (g mod xi - (xi - 1) - 1, g / xi + 1) else (g mod xi, g / xi)) = (r, q) /\
              g = r + xi * q /\ Z.abs r <= xi / 2 /\ 0 <= q <= sbound xi n).
    { cbn [sbound] in Hg. pose proof (Z.div_mod g xi ltac:(lia)) as Dm. pose proof (Z.mod_pos_bound g xi ltac:(lia)) as Bm. assert (0 <= g / xi) by (apply Z.div_pos; lia).
      rewrite Z.gtb_ltb. destruct (Z.ltb_spec (xi / 2) (g mod xi)) as [C|C]; eexists; eexists; (split; [reflexivity|]); clear IH; generalize dependent (g mod xi); generalize dependent (g / xi); generalize dependent (sbound xi n); generalize dependent (xi / 2); intros h Eh s q Hq m Hg Dm Bm C; (split; [lia|]); (split; [lia|]); (split; [lia|]); clear Ng; nia. }
    destruct X as (r & q & -> & Eg & Br & Bq). destruct (IH (i + 1) q ltac:(lia) Bq) as (N & B & V).
    set (D := digits n k (i + 1) q) in *. rewrite rev_app_distr.
    assert (Pw : xi ^ (i + 1) = xi * xi ^ i) by (rewrite Z.pow_add_r, Z.pow_1_r by lia; ring).
    destruct (Z.eqb_spec r 0) as [R0|Nr]; cbn [rev app].
    + rewrite app_nil_r. split; [exact N|]. split; [intros t Ht; destruct (B t Ht); split; [lia|assumption]|]. rewrite V, Pw, Eg, R0. ring.
    + split; [|split].
      * destruct N as (N1 & N2 & N3). split; [apply Forall_app; split; [exact N1|constructor; [exact Hi|constructor]]|].
        split; [|apply Forall_app; split; [exact N3|constructor; [exact Nr|constructor]]].
        assert (Gt : Forall (fun e => m_gt uniS e i = true) (map fst (rev D))).
        { apply Forall_forall. intros e He. apply in_map_iff in He as (t & <- & Ht). apply in_rev in Ht. destruct (B t Ht) as [B1 _]. cbn [uniS m_gt]. apply Z.gtb_lt. lia. }
        unfold desc in *. rewrite map_app. cbn [map fst]. clear - N2 Gt. induction N2 as [|e l N2 IHn H]; cbn [app]; [constructor; constructor|].
        inversion Gt as [|? ? G1 G2]; subst. constructor; [apply IHn, G2|]. apply Forall_app. split; [exact H|constructor; [exact G1|constructor]].
      * intros t [<-|Ht]; [cbn [fst snd]; split; [lia|exact Br]|]. destruct (B t Ht). split; [lia|assumption].
      * unfold MonoStruct.graw. rewrite map_app. cbn [map fst snd]. unfold val. change (map (fun t => (usm (fst t), snd t)) (rev D) ++ [(usm i, r)]) with (radd (graw (rev D)) (graw [(i, r)])).
        rewrite (reval_add K HK). fold (val xi (graw (rev D))). fold (val xi (graw [(i, r)])). rewrite V, val_cons by exact Hi. cbn [fst snd cadd Zc]. change (val xi (graw [])) with 0.
        rewrite Pw, Eg. ring.
Qed.

(** ** primitive part *)
Lemma heu_pp_ok (H : upz) : norm H -> H <> [] -> exists c, c <> 0 /\ (forall t, In t H -> (c | snd t)) /\ norm (heu_pp H) /\ heu_pp H <> [] /\ graw H == rmul K (graw (heu_pp H)) (rconst c).
Proof.
  intros N Ne. pose proof (ucont_nz H N Ne) as Nc. destruct (ucont_spec H Ne) as [Dc _]. set (c := ucont H) in *.
  assert (X : exists c' H1, (if (c =? 1) || (c =? -1) then H else map (fun t => (fst t, Z.quot (snd t) c)) H) = H1 /\ c' <> 0 /\ (forall t, In t H -> (c' | snd t)) /\ norm H1 /\ H1 <> [] /\ graw H == rmul K (graw H1) (rconst c')).
  { destruct ((c =? 1) || (c =? -1)).
    - exists 1, H. split; [reflexivity|]. split; [lia|]. split; [intros; apply Z.divide_1_l|]. split; [exact N|]. split; [exact Ne|]. change (rconst 1) with (r1 K). ring.
    - destruct (uquot_ok H c N Nc Dc) as (A & B & _). exists c, (map (fun t => (fst t, Z.quot (snd t) c)) H). split; [reflexivity|]. split; [exact Nc|]. split; [exact Dc|]. split; [exact A|].
      split; [destruct H; [congruence|discriminate]|exact B]. }
  unfold heu_pp. fold c. destruct X as (c' & H1 & -> & Nc' & Dc' & N1 & Ne1 & E1). destruct H1 as [|t r] eqn:Eh; [congruence|]. rewrite <- Eh in *. clear Eh.
  destruct (snd t <? 0); [|exists c'; auto 8].
  destruct (uscale_ok H1 (-1) N1 ltac:(lia)) as [A B].
  assert (Em : map (fun t0 : Z * Z => (fst t0, - snd t0)) H1 = map (fun t0 => (fst t0, snd t0 * -1)) H1) by (apply map_ext; intros u; f_equal; lia).
  rewrite Em. exists (- c'). split; [lia|]. split; [intros u Hu; apply Z.divide_opp_l, Dc', Hu|]. split; [exact A|]. split; [destruct H1; [congruence|discriminate]|].
  rewrite B, E1. transitivity (rmul K (graw H1) (rmul K (rconst (-1)) (rconst (- c')))); [|ring]. rewrite (rconst_mul K). cbn [cmul Zc]. replace (-1 * - c') with c' by lia. reflexivity.
Qed.

(** ** bit lengths *)
Lemma bits2_ok c : 1 <= bits2 c /\ Z.abs c <= 2 ^ bits2 c - 1.
Proof.
  unfold bits2. destruct (Z.eqb_spec c 0) as [->|N]; [cbn; lia|]. pose proof (Z.log2_nonneg (Z.abs c)). destruct (Z.log2_spec (Z.abs c) ltac:(lia)) as [_ X]. rewrite <- Z.add_1_r in X. lia.
Qed.
Lemma max_bits_ok (F : upz) : F <> [] -> 1 <= max_bits F /\ forall t, In t F -> Z.abs (snd t) <= 2 ^ max_bits F - 1.
Proof.
  intros Ne. unfold max_bits.
  assert (X : forall b, let m := fold_left (fun b (t : Z * Z) => Z.max b (bits2 (snd t))) F b in b <= m /\ forall t, In t F -> bits2 (snd t) <= m).
  { clear Ne. induction F as [|u F IH]; intros b; cbn [fold_left]; cbv zeta; [split; [lia|intros t []]|].
    destruct (IH (Z.max b (bits2 (snd u)))) as [A B]. split; [lia|]. intros t [<-|Ht]; [lia|apply B, Ht]. }
  destruct (X 0) as [A B]. set (m := fold_left _ _ _) in *. clearbody m.
  assert (B' : forall t, In t F -> 1 <= m /\ Z.abs (snd t) <= 2 ^ m - 1).
  { intros t Ht. destruct (bits2_ok (snd t)) as [C1 C2]. specialize (B t Ht). split; [lia|].
    pose proof (Z.pow_le_mono_r 2 (bits2 (snd t)) m ltac:(lia) B). lia. }
  split; [|intros t Ht; apply (B' t Ht)]. destruct F as [|t F]; [congruence|]. apply (B' t (or_introl eq_refl)).
Qed.
Lemma ucoef_bound (F : upz) B : norm F -> 0 <= B -> (forall t, In t F -> Z.abs (snd t) <= B) -> forall s, Z.abs (coef K (graw F) s) <= B.
Proof.
  intros N HB Bd s. destruct (Z.eq_dec (coef K (graw F) s) 0) as [->|Nz]; [exact HB|].
  apply (usupp K HD F s N) in Nz as (t & Ht & E). rewrite <- (coef_proper K HK (graw F) _ _ E), (uin_coef K HD F t N Ht). apply Bd, Ht.
Qed.

(** ** the heuristic gcd *)
Lemma cofactor_deg (k m : rpoly Z) (F' : upz) B xi : norm F' -> F' <> [] -> graw F' == rmul K k m -> 0 <= B -> (forall t, In t F' -> Z.abs (snd t) <= B) ->
  B + 2 <= xi -> Z.abs (val xi k) < xi - 1 - B -> deg_le K k 0%N 0%N.
Proof.
  intros N Ne E HB Bd Hx V. destruct (deg_exists K HD k 0%N) as [d [D1 D2]]. destruct (N.eq_dec d 0) as [->|Nd]; [exact D1|]. exfalso.
  destruct D2 as [D2|(s & Hs & Es)]; [contradiction|].
  destruct (udvd_rep K HD HG F' k N Ne) as (k' & Nk & _ & Ek); [exists m; rewrite E; ring|].
  assert (X : xi - 1 - B <= Z.abs (val xi (graw k'))).
  { apply (@divisor_value F' k' m B xi); [exact (proj1 N)|exact (proj1 Nk)|rewrite Ek; exact E|exact HB|apply ucoef_bound; assumption| | |exact Hx].
    - destruct F' as [|t r]; [congruence|]. exists (Z.to_nat (fst t)). pose proof (unin K _ _ N (or_introl eq_refl)) as [O1 O2]. rewrite Z2Nat.id by exact O1.
      rewrite (uin_coef K HD _ t N (or_introl eq_refl)). exact O2.
    - rewrite <- (Ek s) in Hs. pose proof Hs as Hs'. apply (usupp K HD k' s Nk) in Hs' as (t & Ht & Et). exists (Z.to_nat (fst t)). pose proof (unin K _ _ Nk Ht) as [O1 O2]. rewrite Z2Nat.id by exact O1.
      split; [|rewrite (uin_coef K HD _ t Nk Ht); exact O2]. specialize (Et 0%N). rewrite exp_usm in Et. cbn [N.eqb] in Et. lia. }
  rewrite (val_proper xi _ _ Ek) in X. lia.
Qed.
Lemma pow_half k mx : mx + 1 <= k -> 1 <= mx -> 2 ^ mx - 1 <= 2 ^ k / 2 - 1.
Proof.
  intros H1 H2. replace k with (1 + (k - 1)) by lia. rewrite Z.pow_add_r, Z.pow_1_r, (Z.mul_comm 2), Z.div_mul by lia.
  pose proof (Z.pow_le_mono_r 2 mx (k - 1) ltac:(lia) ltac:(lia)). lia.
Qed.
Lemma value_bound k t (r : upz) : norm (t :: r) -> 1 <= fst t -> max_bits (t :: r) + 1 <= k ->
  let v := horner (2 ^ k) (udense (t :: r)) in
  v = val (2 ^ k) (graw (t :: r)) /\ 0 < Z.abs v <= sbound (2 ^ k) (Z.to_nat (fst t + 1)).
Proof.
  intros N Dt Hk v. destruct (max_bits_ok (t :: r) ltac:(discriminate)) as [M1 M2]. set (mx := max_bits (t :: r)) in *. clearbody mx.
  pose proof (pow_half k mx Hk M1) as Hh. assert (P1 : 2 <= 2 ^ mx) by (apply (Z.pow_le_mono_r 2 1 mx); lia).
  assert (Hx : 2 <= 2 ^ k) by (apply (Z.pow_le_mono_r 2 1 k); lia).
  assert (X2 : 2 * (2 ^ k / 2) <= 2 ^ k) by (pose proof (Z.mul_div_le (2 ^ k) 2 ltac:(lia)); lia).
  destruct (udense_ok (2 ^ k) (2 ^ mx - 1) t r N ltac:(lia) M2) as (A1 & A2 & A3). cbv zeta in A1, A2, A3.
  split; [exact A1|]. split.
  - destruct (Z.eq_dec v 0) as [V0|]; [exfalso|lia].
    assert (DL : deg_le K (graw (t :: r)) 0%N 0%N).
    { apply (cofactor_deg (graw (t :: r)) (r1 K) (t :: r) (2 ^ mx - 1) (2 ^ k) N ltac:(discriminate)); [ring|lia|exact M2|lia|]. rewrite <- A1. fold v. rewrite V0. cbn [Z.abs].
      assert (2 ^ mx - 1 < 2 ^ k - 1 - (2 ^ mx - 1) + (2 ^ mx - 1)) by lia. lia. }
    pose proof (unin K _ _ N (or_introl eq_refl)) as [O1 O2]. specialize (DL (usm (fst t))). rewrite (uin_coef K HD _ t N (or_introl eq_refl)) in DL. specialize (DL O2).
    rewrite exp_usm in DL. cbn [N.eqb] in DL. lia.
  - unfold v. rewrite horner_hsum. replace (Z.to_nat (fst t + 1)) with (length (udense (t :: r))) by (rewrite A2; lia). apply hsum_bound; [exact Hx|].
    eapply Forall_impl; [|exact A3]. cbv beta. intros c Hc. lia.
Qed.

Theorem gcdheu_ok srt fuel tf rf tg rg H : let F := tf :: rf in let G := tg :: rg in norm F -> norm G -> 1 <= fst tf -> 1 <= fst tg ->
  gcdheu srt fuel F G = Ok (Some H) ->
  norm H /\ graw H %| graw F /\ graw H %| graw G /\ exists d, deg_is K (graw H) 0%N d /\ forall D, D %| graw F -> D %| graw G -> deg_le K D 0%N d.
Proof.
  intros F G NF NG Df Dg E. unfold gcdheu in E. destruct (128 <=? max_bits F + max_bits G); [discriminate|].
  destruct (max_bits_ok F ltac:(discriminate)) as [Mf1 Mf2]. destruct (max_bits_ok G ltac:(discriminate)) as [Mg1 Mg2].
  set (k := pack_bits (max_bits F) (max_bits G)) in *. assert (Hk : k = Z.max (Z.min (max_bits F) (max_bits G) + 6) (Z.max (max_bits F) (max_bits G) + 1)) by reflexivity. clearbody k.
  assert (Kf : max_bits F + 1 <= k) by lia. assert (Kg : max_bits G + 1 <= k) by lia.
  destruct (value_bound k tf rf NF Df Kf) as (Vf & Bf). destruct (value_bound k tg rg NG Dg Kg) as (Vg & Bg). fold F in Vf, Bf. fold G in Vg, Bg.
  set (vf := horner (2 ^ k) (udense F)) in *. set (vg := horner (2 ^ k) (udense G)) in *. set (g := Z.gcd (Z.abs vf) (Z.abs vg)) in *. cbv zeta in E.
  assert (Dgf : (g | vf)) by (apply Z.divide_abs_r, Z.gcd_divide_l). assert (Dgg : (g | vg)) by (apply Z.divide_abs_r, Z.gcd_divide_r).
  assert (G0 : 0 <= g) by apply Z.gcd_nonneg.
  assert (Gn : g <> 0) by (intros X; rewrite X in Dgf; apply Z.divide_0_l in Dgf; lia).
  assert (Bd : 0 <= g <= sbound (2 ^ k) (Z.to_nat (Z.min (udeg F) (udeg G) + 1))).
  { split; [exact G0|]. cbn [udeg F G]. destruct (Z.min_spec (fst tf) (fst tg)) as [[_ ->]|[_ ->]].
    - apply Z.divide_abs_r in Dgf. apply Z.divide_pos_le in Dgf; lia.
    - apply Z.divide_abs_r in Dgg. apply Z.divide_pos_le in Dgg; lia. }
  destruct (digits_ok k ltac:(lia) _ 0 g ltac:(lia) Bd) as (ND & BD & VD). set (D := digits _ k 0 g) in *. rewrite Z.pow_0_r, Z.mul_1_r in VD. clearbody D.
  destruct D as [|d0 D'] eqn:EDd; [discriminate|]. rewrite <- EDd in *. assert (Dne : rev D <> []). { intros X. apply (f_equal (@rev _)) in X. rewrite rev_involutive in X. rewrite X in EDd. discriminate. } clear EDd.
  rewrite (normalization_id uok (m_gt uniS) (m_eq uniS) K (ms_order uniS uok usm uniS_ok) (ms_eq uniS uok usm uniS_ok) HK srt _ ND) in E.
  destruct (heu_pp_ok (rev D) ND Dne) as (c & Nc & Dc & NH & Hne & EH). set (H1 := heu_pp (rev D)) in *. clearbody H1.
  destruct (udivrem fuel F H1) as [[Q1 R1]| | |] eqn:E1; try discriminate. cbn [obind] in E. destruct R1; [|discriminate].
  destruct (udivrem fuel G H1) as [[Q2 R2]| | |] eqn:E2; try discriminate. cbn [obind] in E. destruct R2; [|discriminate].
  injection E as <-.
  destruct (udivrem_ok fuel F H1 Q1 NF NH Hne E1) as [_ EQ1]. destruct (udivrem_ok fuel G H1 Q2 NG NH Hne E2) as [_ EQ2].
  assert (DF : graw H1 %| graw F) by (exists (graw Q1); exact EQ1). assert (DG : graw H1 %| graw G) by (exists (graw Q2); exact EQ2).
  split; [exact NH|]. split; [exact DF|]. split; [exact DG|].
  assert (NzF : ~ graw F == r0) by (apply (unz K HD F NF); discriminate).
  assert (NzH : ~ graw H1 == r0) by (apply (unz K HD H1 NH), Hne).
  destruct (gcd_exists K HD HG (graw F) (graw G)) as [gg (I1 & I2 & I3)]. destruct (I3 _ DF DG) as [q Eq].
  assert (Vh : val (2 ^ k) (graw H1) * c = g). { rewrite <- VD, (val_proper _ _ _ EH), val_mul, val_const. reflexivity. }
  assert (Vq : (val (2 ^ k) q | c)).
  { assert (X : (val (2 ^ k) gg | g)).
    { apply Z.gcd_greatest; apply Z.divide_abs_r.
      - rewrite Vf. destruct I1 as [u Eu]. exists (val (2 ^ k) u). rewrite (val_proper _ _ _ Eu), val_mul. reflexivity.
      - rewrite Vg. destruct I2 as [u Eu]. exists (val (2 ^ k) u). rewrite (val_proper _ _ _ Eu), val_mul. reflexivity. }
    rewrite (val_proper _ _ _ Eq), val_mul, <- Vh in X. destruct X as [e Ee]. exists e.
    assert (Nv : val (2 ^ k) (graw H1) <> 0) by (intros X0; rewrite X0 in Vh; lia).
    apply (Z.mul_cancel_l _ _ _ Nv). rewrite Ee. ring. }
  assert (Bc : Z.abs c <= 2 ^ k / 2).
  { destruct D as [|t D0]; [contradiction Dne; reflexivity|]. destruct (BD t (or_introl eq_refl)) as [_ X]. assert (It : In t (rev (t :: D0))) by (apply -> in_rev; left; reflexivity).
    pose proof (Dc t It) as Y. pose proof (unin K _ t ND It) as [_ Nt]. apply Z.divide_abs_l, Z.divide_abs_r in Y. apply Z.divide_pos_le in Y; [lia|]. cbn in Nt. lia. }
  assert (Bq : Z.abs (val (2 ^ k) q) <= 2 ^ k / 2). { apply Z.divide_abs_l, Z.divide_abs_r in Vq. apply Z.divide_pos_le in Vq; lia. }
  assert (Hb : forall b, 1 <= b -> b + 6 <= k -> 2 ^ b - 1 + 2 <= 2 ^ k /\ 2 ^ k / 2 < 2 ^ k - 1 - (2 ^ b - 1) /\ 0 <= 2 ^ b - 1).
  { intros b Hb1 Hb2. replace k with (1 + (k - 1)) by lia. rewrite Z.pow_add_r, Z.pow_1_r, (Z.mul_comm 2), Z.div_mul by lia.
    pose proof (Z.pow_le_mono_r 2 (b + 1) (k - 1) ltac:(lia) ltac:(lia)) as X. rewrite Z.pow_add_r, Z.pow_1_r in X by lia. assert (2 <= 2 ^ b) by (apply (Z.pow_le_mono_r 2 1 b); lia). lia. }
  assert (Dq : deg_le K q 0%N 0%N).
  { destruct (Z.min_spec (max_bits F) (max_bits G)) as [[_ Em]|[_ Em]]; rewrite Em in Hk.
    - destruct (Hb (max_bits F) Mf1 ltac:(lia)) as (B1 & B2 & B3). destruct I1 as [u Eu].
      apply (cofactor_deg q (rmul K u (graw H1)) F (2 ^ max_bits F - 1) (2 ^ k) NF ltac:(discriminate)); [rewrite Eu, Eq; ring|exact B3|exact Mf2|exact B1|lia].
    - destruct (Hb (max_bits G) Mg1 ltac:(lia)) as (B1 & B2 & B3). destruct I2 as [u Eu].
      apply (cofactor_deg q (rmul K u (graw H1)) G (2 ^ max_bits G - 1) (2 ^ k) NG ltac:(discriminate)); [rewrite Eu, Eq; ring|exact B3|exact Mg2|exact B1|lia]. }
  destruct (deg_exists K HD (graw H1) 0%N) as [d Dd]. exists d. split; [exact Dd|]. intros D1 D1F D1G. destruct (I3 D1 D1F D1G) as [w Ew].
  assert (Nzg : ~ gg == r0). { destruct I1 as [u Eu]. intros X. apply NzF. rewrite Eu, X. ring. }
  assert (NzD : ~ D1 == r0) by (intros X; apply Nzg; rewrite Ew, X; ring). assert (Nzw : ~ w == r0) by (intros X; apply Nzg; rewrite Ew, X; ring).
  destruct (deg_exists K HD D1 0%N) as [d1 Hd1]. destruct (deg_exists K HD w 0%N) as [dw Hdw].
  pose proof (deg_is_mul K HD HG _ _ _ _ _ Nzw NzD Hdw Hd1) as X. rewrite <- Ew in X.
  assert (Y : deg_le K gg 0%N (0 + d)%N). { intros m Hm. rewrite (Eq m) in Hm. revert m Hm. apply (deg_le_mul K HD); [exact Dq|apply Dd]. }
  apply (deg_le_weak K D1 0%N d1); [|apply Hd1]. destruct X as [_ [X|(m & Hm & Em)]]; [lia|]. specialize (Y m Hm). lia.
Qed.
