(** * C53: Zassenhaus recombination of lifted factors. *)
From Coq Require Permutation.
From Verif Require Import Prelude Coef Spec SpecProofs SpecOps SpecOpsProofs GcdDom GcdPoly GcdMath GcdProofs OrderSpec PairVec PairVecProofs MonoStruct MonoStructProofs Heap Poly PolyMulProofs Div PolyDivProofs
  PolyOps PolyOpsProofs ConvertProofs Zp NumSpec ZpProofs DenseSparse UGcd UGcdProofs ExtGcd ExtGcdProofs Props_Div FactorZp FzpMath FactorZpBase Hensel HenselMath HenselBase HenselDiv HenselStep HenselTree HenselBuild Props_Hensel Factor.
From mathcomp Require Import all_ssreflect all_algebra all_field ssrZ.
Import GRing.Theory.
Set Implicit Arguments.
Unset Strict Implicit.
Local Open Scope ring_scope.
Delimit Scope Z_scope with CZ.

(** ** Specification ([znormal], [lead], [zproduct], [monic_poly] are in Props_Hensel.v) *)
(** the coefficients have no common divisor *)
Definition primitive_poly (f : list (Z * Z)) : Prop := forall d : Z, (forall t, List.In t f -> (d | snd t)%CZ) -> (d | 1)%CZ.
(** std::sort by degree: some permutation, with degrees in increasing order *)
Definition degree_sort (rsort : list (list (Z * Z)) -> list (list (Z * Z))) : Prop :=
  forall l, Permutation.Permutation (rsort l) l /\ Sorted.StronglySorted (fun a b => (udeg a <= udeg b)%CZ) (rsort l).

(** ** Proofs *)
Notation upz := (list (Z * Z)).
Notation unz := (normal uok (m_gt uniS) Zc).
Notation TZ := HenselBase.T.
Lemma T_inj (f g : upz) : unz f -> unz g -> TZ f = TZ g -> f = g.
Proof.
elim: f g => [|[e c] f IH] [|[e' c'] g] Nf Ng //.
- move=> /(congr1 (fun P : {poly Z} => size P)). by rewrite (T_size Ng) size_poly0.
- move=> /(congr1 (fun P : {poly Z} => size P)). by rewrite (T_size Nf) size_poly0.
- move=> E. have [/= H1 _] := HenselBase.n_in Nf (or_introl erefl). have [/= H2 _] := HenselBase.n_in Ng (or_introl erefl).
  have Es := congr1 (fun P : {poly Z} => size P) E. rewrite /= (T_size Nf) (T_size Ng) in Es. case: Es => /(Z2Nat.inj _ _ H1 H2) Ee.
  have Ec := congr1 (fun P : {poly Z} => lead_coef P) E. rewrite /= (HenselBase.T_lead Nf) (HenselBase.T_lead Ng) in Ec.
  subst e' c'. congr cons. apply: IH; [exact: HenselBase.n_tl Nf|exact: HenselBase.n_tl Ng|].
  move: E. rewrite !HenselBase.T_cons. exact: addrI.
Qed.
Lemma cfold_nonneg (l : upz) c : (0 < c)%CZ -> (0 <= fold_left (fun c u => Z.gcd c (snd u)) l c)%CZ.
Proof.
move=> c0. have : (0 <= c)%CZ by move: c0; clear; lia. elim: l c {c0} => [|t l IH] c H //=. apply: IH. exact: Z.gcd_nonneg.
Qed.
Lemma quot_T k (l : upz) : (0 < k)%CZ -> unz l -> (forall t, List.In t l -> (k | snd t)%CZ) ->
  let q := map (fun u => (fst u, Z.quot (snd u) k)) l in unz q /\ TZ l = k *: TZ q.
Proof.
move=> k0. elim: l => [|[e c] l IH] N D; first by split; [exact: HenselBase.n_nil|rewrite HenselBase.T_nil scaler0].
have [I1 I2] := IH (HenselBase.n_tl N) (fun t H => D t (or_intror H)). have [/= He Hc] := HenselBase.n_in N (or_introl erefl).
have [y /= Ey] := D _ (or_introl erefl). have Eq : (Z.quot c k = y)%CZ by rewrite Ey Z.quot_mul //; move: k0; clear; lia.
split.
- rewrite /= Eq. apply: HenselBase.n_cons => //; first by move=> y0; apply: Hc; rewrite Ey y0.
  move=> t /List.in_map_iff[u [<- Hu]]. have := HenselBase.n_head N Hu. rewrite /=. clear. lia.
- rewrite [map _ _]/= !HenselBase.T_cons I2 /= Eq scalerDr scalerA. congr (_ *: _ + _). rewrite Ey. exact: mulrC.
Qed.
(** a normal polynomial with a positive leading coefficient *)
Definition pos (f : upz) : Prop := unz f /\ (0 < lead f)%CZ.
Lemma pos_T f : unz f -> (0 < lead_coef (TZ f))%CZ -> pos f.
Proof.
case: f => [|[e c] l] N; last by rewrite (HenselBase.T_lead N).
rewrite HenselBase.T_nil lead_coef0. by [].
Qed.
Lemma lead_T f : unz f -> lead_coef (TZ f) = lead f.
Proof. case: f => [|[e c] l] N; [by rewrite HenselBase.T_nil lead_coef0|exact: (HenselBase.T_lead N)]. Qed.
Lemma prim_ok f : pos f -> exists k, [/\ (0 < k)%CZ, pos (snd (uprim f)), TZ f = k *: TZ (snd (uprim f)), udeg (snd (uprim f)) = udeg f &
  forall d : Z, (forall t, List.In t f -> (d | snd t)%CZ) -> (d | k)%CZ].
Proof.
move=> [N L]. case: f N L => [|[e c] l] N L //. rewrite /uprim. change (lead ((e, c) :: l)) with c in L.
have Lc : (c <? 0)%CZ = false by apply/Z.ltb_ge; move: L; clear; lia.
have Fn : (e, c) :: l <> [::] by []. set f := (e, c) :: l in N Fn *. have [D D2] := @ucont_spec f Fn. change (snd (e, c)) with c. rewrite Lc.
have k0 : (0 < ucont f)%CZ.
  have k1 := ucont_nz f N Fn. have := @cfold_nonneg l c L. change (fold_left _ l c) with (ucont f). move: k1. clear. lia.
exists (ucont f). have [I1 I2] := quot_T k0 N D. split=> //. clear D2. split=> //.
have [y Ey] := D _ (or_introl erefl). change (snd (e, c)) with c in Ey. change (0 < Z.quot c (ucont f))%CZ. move: (ucont f) k0 Ey => k k0 Ey.
rewrite Ey Z.quot_mul; last by move: k0; clear; lia. move: L k0. rewrite Ey. clear. nia.
Qed.
Definition degsum (l : list upz) : Z := fold_right (fun h s => (udeg h + s)%CZ) 0%CZ l.
(** ** The product of a subset *)
Definition good (h : upz) : Prop := [/\ unz h, monic_poly h & (0 < udeg h)%CZ].
Lemma symm_mod_small a m : (0 < a)%CZ -> (2 * a <= m)%CZ -> symm_mod m a = a.
Proof.
move=> H1 H2. rewrite /symm_mod Z.mod_small; last by move: H1 H2; clear; lia.
rewrite Z.gtb_ltb. case: Z.ltb_spec => // L. have := Z.div_le_lower_bound m 2 a. move: L H2. clear. lia.
Qed.
Lemma sub_total m lc (sel : list upz) : (1 < m)%CZ -> (0 < lc)%CZ -> (2 * lc <= m)%CZ -> List.Forall good sel -> forall prod,
  unz prod -> lead prod = lc -> exists g, usubset m prod sel = Ok g /\ pos g /\ (udeg g = udeg prod + degsum sel)%CZ.
Proof.
move=> m1 l0 l2. have lc0 : lc <> 0%CZ by move: l0; clear; lia. have Hlc : (0 < lc < m)%CZ by move: l0 l2; clear; lia.
elim: sel => [|h sel IH] HS prod Np Lp.
- case: prod Np Lp => [|[e c] r] Np Lp; first by case: lc0. change (lead ((e, c) :: r)) with c in Lp. subst c.
  have NM : unz (usymm_mod m ((e, lc) :: r)) := @HenselBase.fmap_norm (symm_mod m) _ Np.
  have EM : usymm_mod m ((e, lc) :: r) = (e, lc) :: usymm_mod m r.
    change (keep e (symm_mod m lc) ++ usymm_mod m r = (e, lc) :: usymm_mod m r). rewrite symm_mod_small // /keep. by case: Z.eqb_spec.
  exists (usymm_mod m ((e, lc) :: r)). split=> //. rewrite EM in NM *. split; first by split. rewrite /= Z.add_0_r. by [].
- have [Nh Mh Dh] := List.Forall_inv HS. have [r [E1 Nr Tr]] := hmul_ok Np Nh. change (hmul prod h) with (umul prod h) in E1.
  have H0 : prod <> [::] by move=> X; apply: lc0; rewrite -Lp X.
  have Lh : lead h = 1%CZ by case: (h) Mh.
  have Lr : lead r = lc.
    rewrite -(lead_T Nr) Tr lead_coefM (lead_T Np) (lead_T Nh) Lp Lh. exact: mulr1.
  have Dr : udeg r = (udeg prod + udeg h)%CZ.
    rewrite !HenselBase.T_deg // Tr. case: (prod) Np H0 => [|[a b] p'] // Np _. case: (h) Nh Mh => [|[a' b'] h'] // Nh _.
    rewrite size_mul; [|by rewrite -size_poly_eq0 T_size|by rewrite -size_poly_eq0 T_size].
    rewrite (T_size Np) (T_size Nh) addSn addnS -plusE !succnK Nat2Z.inj_add //.
  rewrite [usubset _ _ _]/= E1 [Prelude.obind (Ok _) _]/=.
  case: r Nr Lr Dr Tr {E1} => [|[er cr] r] Nr Lr Dr Tr; first by case: lc0; rewrite -Lr.
  change (lead ((er, cr) :: r)) with cr in Lr. subst cr.
  have NM : unz (umod_coeff m ((er, lc) :: r)) := @HenselBase.fmap_norm (fun c => c mod m)%CZ _ Nr.
  have EM : umod_coeff m ((er, lc) :: r) = (er, lc) :: umod_coeff m r.
    change (keep er (lc mod m) ++ umod_coeff m r = (er, lc) :: umod_coeff m r). rewrite Z.mod_small /keep; last by move: Hlc; clear; lia. by case: Z.eqb_spec.
  rewrite EM in NM *. have [g [Eg [Pg Dg]]] := IH (List.Forall_inv_tail HS) _ NM erefl. exists g. split=> //. split=> //.
  move: Dg Dr. change (udeg ((er, lc) :: r)) with er. change (udeg ((er, lc) :: umod_coeff m r)) with er. change (degsum (h :: sel)) with (udeg h + degsum sel)%CZ. clear. lia.
Qed.
(** ** One trial division *)
Definition split (f pp q : upz) : Prop :=
  [/\ pos pp /\ (0 < udeg pp)%CZ, pos q, (lead q <= lead f)%CZ & exists k, (0 < k)%CZ /\ TZ f = k *: (TZ pp * TZ q)].
Lemma le_prod k a b : (0 < k -> 0 < a -> 0 < b -> a <= k * a * b)%CZ.
Proof. move=> k0 a0 b0. have -> : (k * a * b = a * (k * b))%CZ by ring. apply/Z.le_mul_diag_r => //. have := Z.mul_pos_pos _ _ k0 b0. clear. lia. Qed.
Lemma trial_total f g : pos f -> pos g -> (0 < udeg g)%CZ ->
  exists x N, (forall fuel, (N <= fuel)%coq_nat -> utrial fuel f g = Ok x) /\ match x with None => True | Some (pp, q) => split f pp q end.
Proof.
move=> [Nf Lf] Pg Dg. have [kg [kg0 Ppp _ Dpp _]] := prim_ok Pg. rewrite /utrial. move: (snd (uprim g)) Ppp Dpp => p0 Ppp Dpp.
have [Np Lp] := Ppp. have p0n : p0 <> [::] by move=> X; move: Lp; rewrite X.
have [q [r [_ [N HN]]]] := p_div_test uniS uok usm Zc uniS_ok HKz Zc_domain Zc_quorem nohook2 f p0 I Nf Np p0n.
case: r HN => [|t r] HN.
- exists (Some (p0, snd (uprim q))), N. split; first by move=> fuel L; rewrite /udivrem HN.
  have [Nq Rq] := udivrem_ok N f p0 q Nf Np p0n (HN N (le_n _)).
  have Tq : TZ f = TZ q * TZ p0 by rewrite /HenselBase.T (toP_req Rq) toP_mul.
  have Lq : lead f = (lead q * lead p0)%CZ by rewrite -!lead_T // Tq lead_coefM.
  have Pq : pos q.
    split=> //. move: Lf. rewrite Lq. exact: (proj1 (Z.mul_pos_cancel_r _ _ Lp)).
  have [k [k0 [Nq' Lq'] Tk _ _]] := prim_ok Pq.
  have Lk : lead q = (k * lead (snd (uprim q)))%CZ by rewrite -!lead_T // {1}Tk lead_coefZ.
  split=> //.
  + split=> //. by rewrite Dpp.
  + rewrite Lq Lk. exact: le_prod.
  + exists k. split=> //. by rewrite Tq {1}Tk -scalerAl mulrC.
- exists None, N. split=> // fuel L. by rewrite /udivrem HN.
Qed.
(** ** The subsets: increasing in lexicographic order *)
Fixpoint valid (n : nat) (idx : list nat) : Prop := match idx with [::] => True | x :: r => (x + length r < n)%coq_nat /\ valid n r end.
Fixpoint enc (n : nat) (idx : list nat) : nat := match idx with [::] => 0%N | x :: r => Nat.add (Nat.mul x (Nat.pow n (length r))) (enc n r) end.
Lemma seqlen k x : length (List.seq x k) = k. Proof. by elim: k x => [|k IH] x //=; rewrite IH. Qed.
Lemma valid_seq n k : forall x, (x + k <= n)%coq_nat -> valid n (List.seq x k).
Proof.
elim: k => [|k IH] x H //=. rewrite seqlen. split; first by move: H; rewrite -plusE; clear; lia. apply: IH. move: H. rewrite -plusE. clear. lia.
Qed.
Lemma enc_lt n idx : valid n idx -> (enc n idx < Nat.pow n (length idx))%coq_nat.
Proof.
elim: idx => [|x r IH] /=; first by move=> _; exact: Nat.lt_0_1.
rewrite -plusE. move=> [H1 /IH H2]. have H3 : (x < n)%coq_nat by move: H1; clear; lia. move: H2 H3. clear. move: (Nat.pow n (length r)) (enc n r) => B u. nia.
Qed.
Lemma next_ok n idx : valid n idx -> match next_comb n idx with None => True | Some i => [/\ valid n i, length i = length idx & (enc n idx < enc n i)%coq_nat] end.
Proof.
elim: idx => [|x r IH] //= [H1 H2]. have := IH H2. case: (next_comb n r) => [r'|].
- move=> [V' L' E']. split.
  + by rewrite /= L'.
  + by rewrite /= L'.
  + rewrite [enc n (x :: r')]/= L'. move: E'. clear. lia.
- move=> _. case: Nat.eqb_spec => // Ne.
  have V : valid n (List.seq (S x) (S (length r))) by apply: valid_seq; move: H1 Ne; rewrite -plusE; clear; lia.
  split; [exact: V|by rewrite /= seqlen|].
  change (List.seq (S x) (S (length r))) with (S x :: List.seq (S (S x)) (length r)). rewrite [enc n (S x :: _)]/= seqlen.
  have := enc_lt H2. move: (Nat.pow n (length r)) (enc n r) (enc n (List.seq _ _)) => B u v. clear. lia.
Qed.
Lemma pick_total (T : list upz) idx : valid (length T) idx -> List.Forall good T -> exists sel, [/\ Factor.pick T idx = Ok sel, List.Forall good sel & idx <> [::] -> sel <> [::]].
Proof.
move=> V H. elim: idx V => [|x r IH] V; first by exists [::].
move: V. rewrite /= -plusE. move=> [V1 /IH[sel [E F _]]]. have V2 : (x < length T)%coq_nat by move: V1; clear; lia.
case En : (List.nth_error T x) => [h|]; last by have := (List.nth_error_Some T x).2 V2; rewrite En.
exists (h :: sel). split=> //; first by rewrite E. constructor=> //. exact: ((List.Forall_forall _ _).1 H _ (List.nth_error_In _ _ En)).
Qed.
Lemma degsum_nonneg sel : List.Forall good sel -> (0 <= degsum sel)%CZ.
Proof. elim: sel => [|h sel IH] H //=. have [_ _ D] := List.Forall_inv H. have := IH (List.Forall_inv_tail H). move: D. clear. lia. Qed.
Lemma degsum_pos sel : List.Forall good sel -> sel <> [::] -> (0 < degsum sel)%CZ.
Proof. case: sel => [|h sel] // H _ /=. have [_ _ D] := List.Forall_inv H. have := degsum_nonneg (List.Forall_inv_tail H). move: D. clear. lia. Qed.
Lemma prune_total m f sel : pos f -> List.Forall good sel -> exists b, prune m f sel = Ok b.
Proof.
move=> [Nf Lf] H. rewrite /prune. case: f Nf Lf => [|[e c] f] Nf Lf //. rewrite [ulc _]/= [Prelude.obind (Ok _) _]/=.
have PL : forall d, exists x, prod_lc d sel = Ok x.
  move=> d. move: d. elim: sel H => [|h sel IH] H d; first by exists d.
  have [_ M _] := List.Forall_inv H. rewrite [prod_lc _ _]/=. case: h M {H} (List.Forall_inv_tail H) => [|u h] // _ H. exact: IH.
have [x ->] := PL c. rewrite [Prelude.obind (Ok _) _]/=. by case: (_ && _); eexists.
Qed.
Lemma scan_total m (T : list upz) f : (1 < m)%CZ -> List.Forall good T -> pos f -> (2 * lead f <= m)%CZ ->
  forall k idx, valid (length T) idx -> idx <> [::] -> (Nat.pow (length T) (length idx) - enc (length T) idx <= k)%coq_nat ->
  exists x N, (forall fuel, (N <= fuel)%coq_nat -> zass_scan fuel m f T idx = Ok x) /\
    match x with None => True | Some (pp, q, i) => [/\ split f pp q, valid (length T) i & i <> [::]] end.
Proof.
move=> m1 HT Pf L2. elim=> [|k IH] idx V Hn Hk; first by have := enc_lt V; move: Hk; clear; lia.
have [sel [Es Fs Sn]] := pick_total V HT. have [b Eb] := prune_total m Pf Fs.
have [Nf Lf] := Pf. have El : ulc f = Ok (lead f) by case: (f) Lf.
have NX : exists x N, (forall fuel, (N <= fuel)%coq_nat -> match next_comb (length T) idx with Some idx' => zass_scan fuel m f T idx' | None => Ok None end = Ok x) /\
    match x with None => True | Some (pp, q, i) => [/\ split f pp q, valid (length T) i & i <> [::]] end.
  have := next_ok V. case: (next_comb (length T) idx) => [i|]; last by move=> _; exists None, 0%N.
  move=> [V' L' E']. apply: IH => //; first by move=> X; apply: Hn; apply/List.length_zero_iff_nil; rewrite -L' X.
  rewrite L'. have := enc_lt V. move: Hk E'. clear. lia.
move: NX => [x1 [N1 [X1 Q1]]].
have GO fuel : zass_scan (S fuel) m f T idx = (r <- (if b then Ok None else (g <- usubset m [:: (0%CZ, lead f)] sel ;; utrial fuel f g)) ;;
   match r with Some (g, q) => Ok (Some (g, q, idx)) | None => match next_comb (length T) idx with Some idx' => zass_scan fuel m f T idx' | None => Ok None end end).
  by rewrite [zass_scan _ _ _ _ _]/= Es [Prelude.obind (Ok _) _]/= Eb [Prelude.obind (Ok b) _]/= El.
case: b GO {Eb} => GO.
- exists x1, (S N1). split=> // fuel. case: fuel => [|fuel] L; first by move: L; clear; lia. rewrite GO /=. apply: X1. move: L. clear. lia.
- have lc0 : lead f <> 0%CZ by move: Lf; clear; lia.
  have N0 : unz [:: (0, lead f)%CZ] by apply: HenselBase.n_cons => //; exact: HenselBase.n_nil.
  have [g [Eg [Pg Dg]]] := sub_total m1 Lf L2 Fs N0 erefl.
  have Dg' : (0 < udeg g)%CZ by rewrite Dg; apply: degsum_pos => //; exact: Sn.
  have [x2 [N2 [X2 Q2]]] := trial_total Pf Pg Dg'.
  case: x2 X2 Q2 => [[pp q]|] X2 Q2.
  + exists (Some (pp, q, idx)), (S N2). split=> // fuel. case: fuel => [|fuel] L; first by move: L; clear; lia.
    rewrite GO Eg [Prelude.obind (Ok g) _]/= X2 //. move: L. clear. lia.
  + exists x1, (S (Nat.max N1 N2)). split=> // fuel. case: fuel => [|fuel] L; first by move: L; clear; lia.
    rewrite GO Eg [Prelude.obind (Ok g) _]/= X2; last by move: L; clear; lia. rewrite /=. apply: X1. move: L. clear. lia.
Qed.
Lemma erase_le (T : list upz) (idx : list nat) : forall k : nat, (length (erase_from k idx T) <= length T)%coq_nat.
Proof. elim: T => [|a T IH] k //=. case: (List.existsb _ _); rewrite /=; have := IH (S k); clear; lia. Qed.
Lemma erase_lt (T : list upz) (idx : list nat) (j : nat) : List.In j idx -> forall k : nat, (k <= j)%coq_nat /\ (j < k + length T)%coq_nat -> (length (erase_from k idx T) < length T)%coq_nat.
Proof.
move=> Hj. elim: T => [|a T IH] k /=; rewrite -plusE; first by clear; lia.
move=> Hk. case Ex : (List.existsb _ _); first by have := erase_le T idx (S k); clear; lia.
rewrite /=. have := IH (S k). rewrite -plusE. have : k <> j.
  move=> X. subst j. move: Ex. have : List.existsb (Nat.eqb k) idx = true by apply/List.existsb_exists; exists k; split=> //; exact: Nat.eqb_refl. by move=> ->.
move: Hk. clear. lia.
Qed.
Lemma erase_good (T : list upz) idx : List.Forall good T -> List.Forall good (erase idx T).
Proof.
rewrite /erase. move: 0%N. elim: T => [|a T IH] k H /=; first by constructor. have Ht := IH (S k) (List.Forall_inv_tail H).
case: (List.existsb _ _) => //. constructor=> //. exact: List.Forall_inv H.
Qed.
Definition found (h : upz) : Prop := pos h /\ (0 < udeg h)%CZ.
Lemma ar1 (s n : nat) : (s + (s + 0) <= n)%coq_nat -> (n <= 0)%coq_nat -> (1 <= s)%coq_nat -> False. Proof. lia. Qed.
Lemma ar2 (s n : nat) : (s + (s + 0) <= n)%coq_nat -> (n - s <= 0)%coq_nat -> (1 <= s)%coq_nat -> False. Proof. lia. Qed.
Section Loop.
Variable usort : list upz -> list upz.
Definition finish (f : upz) res := usort (if (match f with [::] => false | _ => true end) && (0 <? udeg f)%CZ then res ++ [:: f] else res)%list.
Lemma loop_total m (P : {poly Z}) : (1 < m)%CZ -> forall a b s T f res, (length T <= a)%coq_nat -> (length T - s <= b)%coq_nat -> (1 <= s)%coq_nat ->
  List.Forall good T -> pos f -> (2 * lead f <= m)%CZ -> List.Forall found res -> (exists k, (0 < k)%CZ /\ P = k *: (prodT res * TZ f)) ->
  exists f' res' N, [/\ forall fuel, (N <= fuel)%coq_nat -> zass_loop usort fuel m s T f res = Ok (finish f' res'), pos f', List.Forall found res' &
    exists k, (0 < k)%CZ /\ P = k *: (prodT res' * TZ f')].
Proof.
move=> m1. elim=> [|a IHa] b; elim: b => [|b IHb] s T f res La Lb Hs HT Pf L2 Hr HP.
1,2,3: exists f, res, 1%N; split=> // -[|fuel] L; first by move: L; clear; lia.
1,2,3: rewrite [zass_loop _ _ _ _ _ _ _]/=; case: Nat.leb_spec => // X; exfalso; first [exact: (ar1 X La Hs)|exact: (ar2 X Lb Hs)].
case Es : (Nat.leb (2 * s) (length T)); last first.
  exists f, res, 1%N. split=> // -[|fuel] L; first by move: L; clear; lia. by rewrite [zass_loop _ _ _ _ _ _ _]/= Es.
have Es' : (2 * s <= length T)%coq_nat by apply/Nat.leb_le.
have V : valid (length T) (List.seq 0 s) by apply: valid_seq; move: Es'; rewrite -?plusE; clear; lia.
have Sn : List.seq 0 s <> [::] by move: Hs; case: (s) => //; clear; lia.
have [x [N1 [X1 Q1]]] := scan_total m1 HT Pf L2 V Sn (le_n _).
have GO fuel : (N1 <= fuel)%coq_nat -> zass_loop usort (S fuel) m s T f res = match x with Some (g, q, idx) => zass_loop usort fuel m 1 (erase idx T) q (res ++ [:: g])%list | None => zass_loop usort fuel m (S s) T f res end.
  move=> L. by rewrite [zass_loop _ _ _ _ _ _ _]/= Es X1.
case: x GO Q1 {X1} => [[[pp q] idx]|] GO Q1.
- move: Q1 => [[Fpp Pq Lq [k1 [k10 E1]]] Vi Hi].
  have Ll : (length (erase idx T) < length T)%coq_nat.
    case: idx Hi Vi {GO} => [|j idx] // _ /= [Vj _]. apply: (@erase_lt T (j :: idx) j); first by left. move: Vj. rewrite -?plusE. clear. lia.
  have [||||||||f' [res' [N [X2 Q2 Q3 Q4]]]] := IHa (length (erase idx T) - 1)%coq_nat 1%N (erase idx T) q (res ++ [:: pp])%list.
  + move: Ll La. clear. lia.
  + exact: le_n.
  + exact: le_n.
  + exact: erase_good.
  + by [].
  + move: Lq L2. clear. lia.
  + apply/List.Forall_app. split=> //. by constructor.
  + move: HP => [k [k0 E]]. exists (k * k1)%CZ. split; first by apply: Z.mul_pos_pos.
    change (res ++ [:: pp])%list with (res ++ [:: pp]). rewrite prodT_cat E E1 -scalerAr scalerA. congr (_ *: _). by rewrite /= mulr1 mulrA.
  + exists f', res', (S (Nat.max N1 N)). split=> // -[|fuel] L; first by move: L; clear; lia.
    rewrite GO; last by move: L; clear; lia. apply: X2. move: L. clear. lia.
- have [|||||||f' [res' [N [X2 Q2 Q3 Q4]]]] := IHb (S s) T f res La => //.
  + move: Lb Hs Es'. clear. lia.
  + move: Hs. clear. lia.
  + exists f', res', (S (Nat.max N1 N)). split=> // -[|fuel] L; first by move: L; clear; lia.
    rewrite GO; last by move: L; clear; lia. apply: X2. move: L. clear. lia.
Qed.
End Loop.
Lemma prim_one (f : upz) k P : unz f -> primitive_poly f -> (0 < k)%CZ -> TZ f = k *: P -> k = 1%CZ.
Proof.
move=> N H k0 E. have D : (k | 1)%CZ.
  apply: H => -[e c] Ht. rewrite /= -(HenselBase.T_in N Ht) E coefZ. exists (P`_(Z.to_nat e)). exact: mulrC.
have := Z.divide_pos_le _ _ _ D. move: k0. clear. lia.
Qed.
Lemma prodT_perm L1 L2 : Permutation.Permutation L1 L2 -> prodT L1 = prodT L2.
Proof. elim=> [|x a b _ IH|x y a|a b c _ -> _ ->] //=; [by rewrite IH|by rewrite mulrCA]. Qed.

(** ** The theorem.  [f] is primitive with a positive leading coefficient, the lifted factors are monic of positive
    degree (nothing else is assumed about them), and m is at least twice the leading coefficient. *)
Theorem C53_recombination : forall rsort f lifted m, degree_sort rsort ->
  znormal f -> (0 < lead f)%CZ -> primitive_poly f ->
  List.Forall (fun h => [/\ znormal h, monic_poly h & (0 < udeg h)%CZ]) lifted -> (1 < m)%CZ -> (2 * lead f <= m)%CZ ->
  exists L, terminates_with (fun fuel => zassenhaus rsort fuel f lifted m) L /\
  req Zc (graw usm f) (zproduct L) /\
  List.Forall (fun h => [/\ znormal h, (0 < lead h)%CZ & (0 < udeg h)%CZ]) L /\
  Sorted.StronglySorted (fun a b => (udeg a <= udeg b)%CZ) L.
Proof.
move=> rsort f lifted m HR Nf Lf Pf HT m1 m2.
suff [L [X0 X1 X2 X3]] : exists L, [/\ terminates_with (fun fuel => zassenhaus rsort fuel f lifted m) L, TZ f = prodT L, List.Forall found L & Sorted.StronglySorted (fun a b => (udeg a <= udeg b)%CZ) L].
  have NL : List.Forall unz L by apply: List.Forall_impl X2 => h [[]].
  have [r [Nr Tr Rr]] := zprod_norm NL. have Er : f = r by apply: T_inj => //; rewrite Tr.
  exists L. split=> //. split; first by rewrite Er. split=> //. by apply: List.Forall_impl X2 => h [[]].
have CONST g : pos g -> ~ (0 < udeg g)%CZ -> TZ g = (lead g)%:P.
  move=> [Ng Lg] D. case: g Ng Lg D => [|[e c] [|[e' c'] g]] Ng Lg D //.
  - have [/= He _] := HenselBase.n_in Ng (or_introl erefl). have e0 : e = 0%CZ by move: He D; clear; rewrite /=; lia.
    rewrite HenselBase.T_cons HenselBase.T_nil addr0 e0 expr0. exact: alg_polyC.
  - have Hi : List.In (e', c') ((e', c') :: g) by left. have := HenselBase.n_head Ng Hi. move: D. clear. rewrite /=. lia.
have Pf' : pos f by [].
rewrite /zassenhaus. case: Nat.leb_spec => Len.
- exists (if (0 <? udeg f)%CZ then [:: f] else [::]). split; first by exists 0%N.
  + case: Z.ltb_spec => D; first by rewrite /= mulr1. have D' : ~ (0 < udeg f)%CZ by move: D; clear; lia.
    have C := CONST f Pf' D'. have E1 : TZ f = (lead f) *: 1 by rewrite C alg_polyC.
    by rewrite C (prim_one Nf Pf Lf E1).
  + by case: Z.ltb_spec => D; constructor.
  + by case: (_ <? _)%CZ; repeat constructor.
- have I0 : exists k, (0 < k)%CZ /\ TZ f = k *: (prodT [::] * TZ f) by exists 1%CZ; split=> //; rewrite /= mul1r scale1r.
  have [fs [res [N [E P1 F1 [k [k0 Ek]]]]]] := loop_total rsort m1 (le_n (length lifted)) (le_n _) (le_n 1) HT Pf' m2 (List.Forall_nil _) I0.
  have Efin : finish rsort fs res = rsort (if (0 <? udeg fs)%CZ then res ++ [:: fs] else res)%list.
    rewrite /finish. by case: (fs) P1 => [|? ?] [].
  rewrite Efin in E. move: E. set L0 := if _ then _ else _ => E.
  have [X1 X2] : TZ f = prodT L0 /\ List.Forall found L0.
    rewrite /L0. case: Z.ltb_spec => D.
    + split; last by apply/List.Forall_app; split=> //; constructor.
      change (res ++ [:: fs])%list with (res ++ [:: fs]). rewrite prodT_cat /= mulr1 Ek. by rewrite (prim_one Nf Pf k0 Ek) scale1r.
    + split=> //. have D' : ~ (0 < udeg fs)%CZ by move: D; clear; lia. rewrite (CONST fs P1 D') in Ek.
      have Ek' : TZ f = (k * lead fs)%CZ *: prodT res.
        rewrite Ek mulrC mul_polyC scalerA. exact: erefl.
      have K0 : (0 < k * lead fs)%CZ by apply: Z.mul_pos_pos => //; exact: (proj2 P1).
      by rewrite Ek' (prim_one Nf Pf K0 Ek') scale1r.
  have [R1 R2] := HR L0. exists (rsort L0). split=> //.
  + by exists N.
  + by rewrite X1 (prodT_perm R1).
  + apply/List.Forall_forall => h Hh. apply: ((List.Forall_forall _ _).1 X2). exact: (Permutation.Permutation_in _ R1 Hh).
Qed.
Print Assumptions C53_recombination.
(** ** A sort by degree exists: insertion sort. *)
Fixpoint ins (a : upz) (l : list upz) : list upz :=
  match l with [::] => [:: a] | b :: l' => if (udeg a <=? udeg b)%CZ then a :: b :: l' else b :: ins a l' end.
Definition isort (l : list upz) : list upz := fold_right ins [::] l.
Lemma ins_perm a l : Permutation.Permutation (ins a l) (a :: l).
Proof.
elim: l => [|b l IH] //=. case: (_ <=? _)%CZ; first exact: Permutation.Permutation_refl.
apply: (Permutation.perm_trans (Permutation.perm_skip b IH)). exact: Permutation.perm_swap.
Qed.
Lemma ins_sorted a l : Sorted.StronglySorted (fun a b => (udeg a <= udeg b)%CZ) l -> Sorted.StronglySorted (fun a b => (udeg a <= udeg b)%CZ) (ins a l).
Proof.
elim: l => [|b l IH] H /=; first by constructor; constructor.
have [H1 H2] := Sorted.StronglySorted_inv H. case: Z.leb_spec => L.
- constructor=> //. constructor=> //. apply: List.Forall_impl H2 => x. move: L. clear. lia.
- constructor; first exact: IH. apply/List.Forall_forall => x Hx. have := Permutation.Permutation_in _ (ins_perm a l) Hx.
  move=> [<-|Hi]; first by move: L; clear; lia. exact: ((List.Forall_forall _ _).1 H2 _ Hi).
Qed.
Lemma isort_ok : degree_sort isort.
Proof.
move=> l. elim: l => [|a l [IH1 IH2]] /=; first by split; constructor.
split; last exact: ins_sorted. apply: (Permutation.perm_trans (ins_perm a _)). exact: Permutation.perm_skip.
Qed.
(** ** Example: f = (x+1) (x+2) (2x+3) and the lifted factors x+1, x+2, x+314 modulo 5^4. *)
Definition ex_g : list (Z * Z) := [:: (3, 2); (2, 9); (1, 13); (0, 6)]%CZ.
Definition ex_lifted : list (list (Z * Z)) := [:: [:: (1, 1); (0, 1)]; [:: (1, 1); (0, 2)]; [:: (1, 1); (0, 314)]]%CZ.
Theorem C53_example_hypotheses : degree_sort isort /\ znormal ex_g /\ (0 < lead ex_g)%CZ /\ primitive_poly ex_g /\
  List.Forall (fun h => [/\ znormal h, monic_poly h & (0 < udeg h)%CZ]) ex_lifted /\ (1 < 625)%CZ /\ (2 * lead ex_g <= 625)%CZ.
Proof.
split; [exact: isort_ok|]. split; [by nrm|]. split=> //. split.
- move=> d H. have H1 := H (3, 2)%CZ (or_introl erefl). have H2 := H (2, 9)%CZ (or_intror (or_introl erefl)).
  have -> : (1 = 9 - 4 * 2)%CZ by []. apply: Z.divide_sub_r; [exact: H2|]. apply: Z.divide_mul_r. exact: H1.
- split=> //. repeat (constructor; first by split; [nrm|done|done]). constructor.
Qed.
Theorem C53_example : zassenhaus isort 20 ex_g ex_lifted 625 = Ok [:: [:: (1, 1); (0, 1)]; [:: (1, 1); (0, 2)]; [:: (1, 2); (0, 3)]]%CZ.
Proof. by vm_compute. Qed.
(** (x^2 - 2) (x^2 - 11), which splits into linear factors modulo 7: the factors are found as pairs *)
Theorem C53_example_pairs : zassenhaus isort 30 [:: (4, 1); (2, -13); (0, 22)]%CZ
    [:: [:: (1, 1); (0, 235)]; [:: (1, 1); (0, 817)]; [:: (1, 1); (0, 1584)]; [:: (1, 1); (0, 2166)]]%CZ 2401 =
  Ok [:: [:: (2, 1); (0, -2)]; [:: (2, 1); (0, -11)]]%CZ.
Proof. by vm_compute. Qed.
(** ** Finding: __upoly_primitive is documented to make the leading coefficient positive; on one term it does not. *)
Theorem C53_primitive_sign_refuted : ~ (forall f, znormal f -> f <> [::] -> (0 < lead (snd (uprim f)))%CZ).
Proof. move=> H. have N : znormal [:: (1, -3)%CZ] by nrm. have F : [:: (1, -3)%CZ] <> [::] by []. by have := H _ N F; vm_compute. Qed.
Print Assumptions C53_primitive_sign_refuted.
