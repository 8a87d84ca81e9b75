(** * Real roots of a squarefree basis (Realroot.v). *)
From Verif Require Import Prelude Coef Spec SpecProofs GcdDom GcdPoly GcdMath GcdProofs Mono MonoProofs MonoStruct MonoStructProofs OrderSpec PairVec PairVecProofs Heap Poly
  PolyMulProofs PolyOps PolyOpsProofs PolyOps2Proofs PolyOps3Proofs MonoOpsProofs GcdTerm GcdLex ConvertProofs GcdRep Zp NumSpec ZpProofs Gcd UGcd QQ QQProofs UGcdBase UGcdProofs UGcdMod UGcdMain Uspensky RootBound Uroot SqfBasis Realroot RealrootBase Library LibraryProofs Props_Gcd Props_Basis.
From mathcomp Require Import all_ssreflect all_algebra ssrZ polyrcf realalg.
From Verif Require Import UspMath UspBase UspTrans UspSqf UspIso UspTerm UrootBase UrootProofs UspTop Props_Real Props_Root RealrootSpec.
Import Order.TTheory GRing.Theory Num.Theory.
Set Implicit Arguments.
Unset Strict Implicit.
Local Open Scope ring_scope.
Delimit Scope Z_scope with CZ.
Local Notation mraw := (MonoStruct.graw sm).
Local Notation uraw := (MonoStruct.graw usm).
Local Notation HKz := (domain_ring Zc Zc_domain).
Local Notation unorm := (normal uok (m_gt uniS) Zc).

(** ** toP of polynomials in one variable *)
Lemma toP_of_upoly v (u : uz) : List.Forall (fun t => uok (fst t)) u -> toP (mraw (of_upoly v u)) = toP (uraw u).
Proof.
elim: u => [|[e c] u IH] H //. have e0 : (0 <= e)%CZ := List.Forall_inv H. rewrite toP_cons -(IH (List.Forall_inv_tail H)).
rewrite /of_upoly /= /toP /= -/(toP _). congr (_ + _). rewrite mul_polyC. congr (_ *: _).
rewrite /umono. case: (Z.gtb_spec e 0) => L /=; first by rewrite mulr1 cpow_X Z_N_nat. by have -> : e = 0%CZ by lia.
Qed.
Lemma toP_const k : toP (rconst k) = k%:P.
Proof. by rewrite /toP /= mulr1 addr0. Qed.
Lemma toP_rmul (A B : rpoly Z) : toP (rmul Zc A B) = toP A * toP B.
Proof. apply: toP_mul. by []. Qed.
Lemma map_zr_inj (R : rcfType) (P Q : {poly Z}) : map_poly (zr R) P = map_poly (zr R) Q -> P = Q.
Proof.
move=> E. apply/polyP => i. apply/Z.eqb_eq. rewrite -(zr_eq R). apply/eqP. by rewrite -!coef_map E.
Qed.

Section One.
Context (vo : vorder) (Hvo : vorder_ok vo) (S : monos mono) (HS : S = lexS vo \/ S = grlexS vo) (v : var).
Local Notation norm := (normal (mok vo) (m_gt S) Zc).
Definition only (p : rpoly Z) : Prop := forall w, w <> v -> vfree Zc w p.
Lemma M1 : monos_ok S (mok vo) sm.
Proof. by case: HS => ->; [apply: lexS_ok|apply: grlexS_ok]. Qed.
Lemma only_upoly usrt (p : Mono.poly Z) : norm p -> only (mraw p) ->
  [/\ of_upoly v (to_upoly Zc usrt p) = p, unorm (to_upoly Zc usrt p) & toP (uraw (to_upoly Zc usrt p)) = toP (mraw p)].
Proof.
move=> N O. have X : forall t w, List.In t p -> w <> v -> zexp (fst t) w = 0%CZ.
  move=> t w It Hw. exact: ((zexp_free vo Hvo S HS p w N).2 (O w Hw) t It).
have [A B] := of_to_upoly Zc HKz vo Hvo S HS v usrt p N X. split=> //. rewrite -{2}A toP_of_upoly //. exact: (proj1 B).
Qed.
Lemma only_of_upoly (u : uz) : unorm u -> norm (of_upoly v u) /\ only (mraw (of_upoly v u)).
Proof.
move=> N. have [A _] := of_upoly_spec Zc vo Hvo S HS v u N. split=> // w Hw. apply: (zexp_free vo Hvo S HS _ w A).1 => t It.
move: It. rewrite /of_upoly => /List.in_map_iff [[e c] [<- I]]. have [/= e0 _] := n_in N I. have [_ X] := umono_spec vo v e e0. rewrite /= (X w).
by case: (N.eqb_spec w v).
Qed.
Lemma toP_inj (R : rcfType) (A B : rpoly Z) : only A -> only B -> toP A = toP B -> req Zc A B.
Proof.
move=> OA OB E. have full : forall s, exists m, mok vo m /\ meq (sm m) s := full_mono vo Hvo.
have [a [Na Ea]] := represent S (mok vo) sm M1 Zc Zc_domain full A. have [b [Nb Eb]] := represent S (mok vo) sm M1 Zc Zc_domain full B.
have On : forall (p : Mono.poly Z) P, req Zc (mraw p) P -> only P -> only (mraw p) by move=> p P H O w Hw m Hm; apply: (O w Hw); rewrite -(H m).
have [Fa Ua Ta] := only_upoly (fun l => l) Na (On _ _ Ea OA). have [Fb Ub Tb] := only_upoly (fun l => l) Nb (On _ _ Eb OB).
have Et : to_upoly Zc (fun l => l) a = to_upoly Zc (fun l => l) b.
  refine ((gnormal_req uniS uok usm Zc uniS_ok HKz _ _ Ua Ub).1 _). apply: (@tr_req R) => //. by rewrite /UspBase.tr Ta Tb (toP_req Ea) (toP_req Eb) E.
transitivity (mraw a); first by symmetry. rewrite -Fa Et Fb. exact: Eb.
Qed.
End One.

(** ** the specification and its bridge *)
Definition mtr (R : rcfType) (p : rpoly Z) : {poly R} := map_poly (zr R) (toP p).
Lemma polyvalue_tr (R : rcfType) f (x : R) : polyvalue f x = (mtr R (mraw f)).[x].
Proof.
rewrite /polyvalue /mtr. elim: f => [|[m c] f IH]; first by rewrite big_nil /toP /= rmorph0 horner0.
rewrite big_cons IH {IH} /toP /= -/(toP _) rmorphD hornerD. congr (_ + _). rewrite rmorphM hornerM /= map_polyC hornerC. congr (_ * _).
rewrite /sm. elim: (md m) => [|[w e] l IH]; first by rewrite big_nil; change (1 = (map_poly (zr R) 1%:P).[x]); rewrite map_polyC hornerC.
rewrite big_cons IH {IH} /= rmorphM hornerM. congr (_ * _). by rewrite cpow_X /= map_polyXn hornerXn Z_N_nat.
Qed.
Lemma mtr_mul (R : rcfType) p q r : req Zc r (rmul Zc p q) -> mtr R r = mtr R p * mtr R q.
Proof. move=> /toP_mul E. by rewrite /mtr E rmorphM. Qed.
Lemma mtr_product (R : rcfType) k B : mtr R (product_for k B) = \prod_(t <- B) mtr R (mraw t.1) ^+ recorded k t.2.
Proof.
elim: B => [|[q ix] B IH]; first by rewrite big_nil /mtr toP_const map_polyC /= zr_1.
rewrite big_cons -IH /=. rewrite (@mtr_mul R (rpow Zc (mraw q) (recorded k ix)) (product_for k B)) //. by rewrite {1}/mtr toP_pow rmorphX.
Qed.
Lemma basis_product (R : rcfType) valid F B k f : is_squarefree_basis valid F B -> List.nth_error F k = Some f -> f <> [::] ->
  exists2 c : R, c != 0 & mtr R (mraw f) = c *: \prod_(t <- B) mtr R (mraw t.1) ^+ recorded k t.2.
Proof.
move=> [_ [_ H]] Hk Hf. have [c [c0 E]] := H k f Hk Hf. exists (zr R c); first by rewrite -(zr_0 R) zr_eq; apply/negP => /Z.eqb_eq.
by rewrite (mtr_mul R E) mtr_product {1}/mtr toP_const map_polyC mul_polyC.
Qed.
Lemma recorded_in k ix : recorded k ix <> 0%N -> exists e, List.In (k, e) ix.
Proof.
elim: ix => [|[j e] ix IH] //=. case: (PeanoNat.Nat.eqb_spec j k) => [->|_]; first by move=> _; exists e; left. move/IH => [e' I]. exists e'. by right.
Qed.
Lemma in_recorded k e ix : List.NoDup (List.map fst ix) -> List.In (k, e) ix -> recorded k ix = e.
Proof.
elim: ix => [|[j d] ix IH] //= N. inversion N as [|? ? N1 N2]; subst. case=> [[-> ->]|I]; first by rewrite PeanoNat.Nat.eqb_refl.
case: (PeanoNat.Nat.eqb_spec j k) => [E|_]; last exact: IH. exfalso. apply: N1. rewrite E. exact: (List.in_map fst _ _ I).
Qed.

Lemma in_product k B q ix : List.In (q, ix) B -> recorded k ix <> 0%N -> rdivides Zc (mraw q) (product_for k B).
Proof.
elim: B => [|[q' ix'] B IH] //= I Hr. case: I => [[-> ->]|I].
- case: (recorded k ix) Hr => [|n] // _. apply: (rd_mulr Zc Zc_domain). cbn [rpow]. apply: (rd_mulr Zc Zc_domain). exact: (rd_refl Zc Zc_domain).
- apply: (rd_mull Zc Zc_domain). exact: IH.
Qed.
Lemma elem_dvd valid F B q ix : is_squarefree_basis valid F B -> List.In (q, ix) B ->
  exists k f, [/\ List.nth_error F k = Some f, f <> [::], rdivides Zc (mraw q) (mraw f) & recorded k ix <> 0%N].
Proof.
move=> [H1 [_ H3]] I. have [_ [_ [_ [Nd [Ne Hx]]]]] := H1 q ix I. case: ix I Nd Ne Hx => [|[k e] ix] // I Nd _ Hx.
have [e1 [f [Hk Hf]]] := Hx k e (or_introl erefl). have Rk : recorded k ((k, e) :: ix) <> 0%N.
  rewrite (in_recorded Nd (or_introl erefl)). lia.
exists k, f. split=> //. have [c [_ E]] := H3 k f Hk Hf. 
exact: (rd_trans Zc Zc_domain _ (product_for k B) _ (in_product I Rk) (ex_intro _ (rconst c) E)).
Qed.

Section Sqf.
Variable R : rcfType.
Context (vo : vorder) (Hvo : vorder_ok vo) (S : monos mono) (HS : S = lexS vo \/ S = grlexS vo) (v : var) (usrt : list (Z * Z) -> list (Z * Z)).
Local Notation norm := (normal (mok vo) (m_gt S) Zc).
Local Notation only := (only v).
Local Notation up := (to_upoly Zc usrt).
Lemma only_mul A B : only A -> only B -> only (rmul Zc A B).
Proof. move=> HA HB w Hw. exact: (vfree_mul Zc Zc_domain w _ _ (HA w Hw) (HB w Hw)). Qed.
Lemma up_tr (q : Mono.poly Z) : norm q -> only (mraw q) -> tr R (up q) = mtr R (mraw q).
Proof. move=> N O. have [_ _ E] := only_upoly Hvo HS usrt N O. by rewrite /UspBase.tr E. Qed.
Lemma zvals_toP (u h r : uz) : unorm u -> unorm h -> unorm r -> (forall x, zvalue u x = (zvalue h x * zvalue r x)%CZ) -> toP (uraw u) = toP (uraw h) * toP (uraw r).
Proof.
move=> Nu Nh Nr E. apply: (@map_zr_inj R). rewrite rmorphM /=.
have Ei : itr u = itr h * itr r by apply: zvals_eq => x; rewrite hornerM !itr_horner; try exact: n_ok; rewrite -iz_mul; congr (int_of_Z _); exact: E.
have := itr_tr R u. rewrite Ei rmorphM /= -!itr_tr. by [].
Qed.
Lemma const_up (h : uz) k : unorm h -> req Zc (mraw (of_upoly v h)) (rconst k) -> constant h.
Proof.
move=> N /toP_req. rewrite toP_of_upoly; last exact: (proj1 N). rewrite toP_const => E. apply: itr_deg => //.
have := itr_tr R h. rewrite /UspBase.tr E map_polyC => E'. rewrite -(size_map_inj_poly (f := (intr : int -> R)) _ _ (itr h)) //; last exact: intr_inj. rewrite -E'. exact: size_polyC_leq1.
Qed.
Lemma common_up (q q' : Mono.poly Z) : norm q -> norm q' -> only (mraw q) -> only (mraw q') -> no_common_nonconstant (mraw q) (mraw q') -> no_common_divisor (up q) (up q').
Proof.
move=> N N' O O' C h r s Nh Nr Ns E1 E2. have [_ Nu Tu] := only_upoly Hvo HS usrt N O. have [_ Nu' Tu'] := only_upoly Hvo HS usrt N' O'.
have D : forall (p : Mono.poly Z) (w : uz), norm p -> only (mraw p) -> unorm (up p) -> toP (uraw (up p)) = toP (mraw p) -> unorm w ->
    (forall x, zvalue (up p) x = (zvalue h x * zvalue w x)%CZ) -> rdivides Zc (mraw (of_upoly v h)) (mraw p).
  move=> p w Np Op Nup Tp Nw Ep. exists (mraw (of_upoly v w)).
  have [_ Oh] := only_of_upoly Hvo HS v Nh. have [_ Ow] := only_of_upoly Hvo HS v Nw.
  apply: (toP_inj Hvo HS R Op); first exact: only_mul.
  rewrite toP_rmul !toP_of_upoly; try exact: (proj1 Nh); try exact: (proj1 Nw).
  by rewrite -Tp (zvals_toP Nup Nh Nw Ep) mulrC.
have [k Ek] := C _ (D q r N O Nu Tu Nr E1) (D q' s N' O' Nu' Tu' Ns E2). exact: const_up Nh Ek.
Qed.
Lemma sqf_up (q : Mono.poly Z) : norm q -> only (mraw q) -> squarefree_nonconstant (mraw q) -> Props_Real.squarefree (up q).
Proof.
move=> N O C h r Nh Nr E1. have [_ Nu Tu] := only_upoly Hvo HS usrt N O.
have [_ Oh] := only_of_upoly Hvo HS v Nh. have [_ Or] := only_of_upoly Hvo HS v Nr.
have D : rdivides Zc (rmul Zc (mraw (of_upoly v h)) (mraw (of_upoly v h))) (mraw q).
  exists (mraw (of_upoly v r)). apply: (toP_inj Hvo HS R O); first by apply: only_mul => //; apply: only_mul.
  rewrite !toP_rmul.
  rewrite !toP_of_upoly; try exact: (proj1 Nh); try exact: (proj1 Nr). rewrite -Tu. apply: (@map_zr_inj R). rewrite !rmorphM /=.
  have Ei : itr (up q) = itr h * itr h * itr r by apply: zvals_eq => x; rewrite !hornerM !itr_horner; try exact: n_ok; rewrite -!iz_mul; congr (int_of_Z _); exact: E1.
  have := itr_tr R (up q). rewrite Ei !rmorphM /= -!itr_tr /UspBase.tr => ->. by rewrite mulrC.
have [k Ek] := C _ D. exact: const_up Nh Ek.
Qed.
End Sqf.

(** ** the roots of a squarefree basis *)
Section Roots.
Variable R : rcfType.
Context (vo : vorder) (Hvo : vorder_ok vo) (S : monos mono) (HS : S = lexS vo \/ S = grlexS vo) (v : var) (usrt : list (Z * Z) -> list (Z * Z)).
Local Notation norm := (normal (mok vo) (m_gt S) Zc).
Local Notation only := (only v).
Local Notation up := (to_upoly Zc usrt).
Variable F : list (Mono.poly Z).
Variable B : basis.
Hypothesis HF : forall f, List.In f F -> norm f /\ forall t, List.In t f -> (mg (fst t) < 2 ^ 62 - 1)%CZ.
Hypothesis HV : forall f t w, List.In f F -> List.In t f -> w <> v -> zexp (fst t) w = 0%CZ.
Hypothesis HB : is_squarefree_basis norm F B.
Let Gs := List.map (fun t : Mono.poly Z * occurrences => up t.1) B.

Lemma F_only f : List.In f F -> only (mraw f).
Proof. move=> I w Hw. have [N _] := HF I. apply: (zexp_free vo Hvo S HS f w N).1 => t It. exact: HV I It Hw. Qed.
Lemma F_nz f : List.In f F -> f <> [::] -> ~ req Zc (mraw f) r0.
Proof. move=> I Ne E. apply: Ne. have [N _] := HF I. exact: (graw_nil_req S (mok vo) sm Zc (M1 Hvo HS) HKz f N E). Qed.
Lemma B_only q ix : List.In (q, ix) B -> [/\ norm q, q <> [::] & only (mraw q)].
Proof.
move=> I. have [H1 _] := HB. have [N [Ne _]] := H1 q ix I. have [k [f [Hk Hf [u Eu] _]]] := elem_dvd HB I. have If := List.nth_error_In _ _ Hk.
have Of : only (mraw f) := F_only If. have Zf : ~ req Zc (mraw f) r0 := F_nz If Hf.
have Oq : only (mraw q).
  intros w Hw. exact (free_div Zc Zc_domain Z_cgcd w (mraw f) u (mraw q) Eu Zf (Of w Hw)).
by split.
Qed.
Lemma mtr_nz (q : Mono.poly Z) : norm q -> q <> [::] -> only (mraw q) -> mtr R (mraw q) != 0.
Proof.
move=> N Ne O. have [E Nu _] := only_upoly Hvo HS usrt N O. rewrite -(up_tr R Hvo HS usrt N O). apply: tr_neq0 => // X. apply: Ne. by rewrite -E X.
Qed.
Lemma up_deg (f : Mono.poly Z) : List.In f F -> (udeg (up f) < 2 ^ 62 - 1)%CZ.
Proof.
move=> I. have [N D] := HF I. have [E Nu _] := only_upoly Hvo HS usrt N (F_only I). case Eu: (up f) => [|[e c] u] /=; first lia.
have I1 : List.In (e, c) (up f) by rewrite Eu; left. have [/= e0 _] := n_in Nu I1.
have I2 : List.In (umono v e, c) f by rewrite -E Eu; left. have := D _ I2.
rewrite /umono. case: (Z.gtb_spec e 0) => L /=; lia.
Qed.
Lemma B_up q ix : List.In (q, ix) B -> upolynomial (up q) /\ (udeg (up q) < 2 ^ 62 - 1)%CZ.
Proof.
move=> I. have [N Ne O] := B_only I. have [E Nu _] := only_upoly Hvo HS usrt N O.
have [k [f [Hk Hf [u Eu] _]]] := elem_dvd HB I. have If := List.nth_error_In _ _ Hk. have [Nf _] := HF If.
have [E' Nu' _] := only_upoly Hvo HS usrt Nf (F_only If).
have D : (udeg (up q) <= udeg (up f))%CZ.
  have Neu : up q <> [::] by move=> X; apply: Ne; rewrite -E X. have Neu' : up f <> [::] by move=> X; apply: Hf; rewrite -E' X.
  have L : (size (tr R (up q)) <= size (tr R (up f)))%N.
    apply: dvdp_leq; first exact: tr_neq0. rewrite (up_tr R Hvo HS usrt N O) (up_tr R Hvo HS usrt Nf (F_only If)) (mtr_mul R Eu). exact: dvdp_mull.
  move: L. rewrite !tr_size // ltnS /dg. have P : forall w : uz, unorm w -> (0 <= udeg w)%CZ.
    by move=> [|[a b] w] Nw //=; have [/= ? _] := n_in Nw (or_introl erefl).
  have := P _ Nu. have := P _ Nu'. move: (udeg _) (udeg _) => a b a0 b0. move/ssrnat.leP. lia.
have := up_deg If. split; last lia. split=> //. lia.
Qed.
Lemma Gs_in g : List.In g Gs -> exists q ix, g = up q /\ List.In (q, ix) B.
Proof. move/List.in_map_iff => [[q ix] [<- I]]. by exists q, ix. Qed.
Lemma Gs_up g : List.In g Gs -> upolynomial g /\ (udeg g < 2 ^ 62 - 1)%CZ.
Proof. move/Gs_in => [q [ix [-> I]]]. exact: B_up I. Qed.
Lemma Gs_sqf g : List.In g Gs -> g <> [::] -> Props_Real.squarefree g.
Proof.
move/Gs_in => [q [ix [-> I]]] _. have [N Ne O] := B_only I. refine (sqf_up R Hvo HS (v := v) N O _). have [H1 _] := HB. by have [_ [_ []]] := H1 q ix I.
Qed.
Lemma pairs_split A (Rl : A -> A -> Prop) l1 a l2 b l3 : List.ForallOrdPairs Rl (l1 ++ a :: l2 ++ b :: l3) -> Rl a b.
Proof.
elim: l1 => [|x l1 IH] /= H; inversion H as [|? ? H1 H2]; subst; last exact: IH.
move/List.Forall_forall: H1. apply. apply: List.in_or_app. right. by left.
Qed.
Lemma pairs_nth A (Rl : A -> A -> Prop) (l : list A) : (forall a b, Rl a b -> Rl b a) -> List.ForallOrdPairs Rl l ->
  forall i j a b, List.nth_error l i = Some a -> List.nth_error l j = Some b -> i <> j -> Rl a b.
Proof.
move=> Sym. elim=> [|x l' H1 _ IH] [|i] [|j] a b //=.
- move=> [<-] Hj _. move/List.Forall_forall: H1. apply. exact: List.nth_error_In Hj.
- move=> Hi [<-] _. apply: Sym. move/List.Forall_forall: H1. apply. exact: List.nth_error_In Hi.
- move=> Hi Hj N. apply: (IH i j) => //. congruence.
Qed.
Lemma common_sym p q : no_common_nonconstant p q -> no_common_nonconstant q p.
Proof. move=> H h A C. exact: H. Qed.
Lemma Gs_co i j g h : List.nth_error Gs i = Some g -> List.nth_error Gs j = Some h -> i <> j -> no_common_divisor g h.
Proof.
rewrite /Gs !List.nth_error_map. case Ei: (List.nth_error B i) => [[q ix]|] //= [<-]. case Ej: (List.nth_error B j) => [[q' ix']|] //= [<-] N.
have [N1 _ O1] := B_only (List.nth_error_In _ _ Ei). have [N2 _ O2] := B_only (List.nth_error_In _ _ Ej).
refine (common_up R Hvo HS (v := v) N1 N2 O1 O2 _). have [_ [H2 _]] := HB.
have Sy : forall t u : Mono.poly Z * occurrences, no_common_nonconstant (mraw t.1) (mraw u.1) -> no_common_nonconstant (mraw u.1) (mraw t.1) by move=> t u; exact: common_sym.
exact: (pairs_nth Sy H2 Ei Ej N).
Qed.
Lemma B_coprime i j t u : List.nth_error B i = Some t -> List.nth_error B j = Some u -> i <> j -> coprimep (mtr R (mraw t.1)) (mtr R (mraw u.1)).
Proof.
case: t u => [q ix] [q' ix'] Ei Ej N /=. have [N1 Ne O1] := B_only (List.nth_error_In _ _ Ei). have [N2 _ O2] := B_only (List.nth_error_In _ _ Ej).
have [E1 U1 _] := only_upoly Hvo HS usrt N1 O1. have [_ U2 _] := only_upoly Hvo HS usrt N2 O2.
rewrite -(up_tr R Hvo HS usrt N1 O1) -(up_tr R Hvo HS usrt N2 O2). apply: nocommon_coprime => //; first by move=> X; apply: Ne; rewrite -E1 X.
apply: co_of. apply: (@Gs_co i j) => //; by rewrite /Gs List.nth_error_map ?Ei ?Ej.
Qed.

Lemma value_mtr (q : Mono.poly Z) (x : R) : norm q -> only (mraw q) -> value (up q) x = (mtr R (mraw q)).[x].
Proof. move=> N O. by rewrite -(up_tr R Hvo HS usrt N O) tr_horner. Qed.
Lemma prod_root (l : basis) k (x : R) : (\prod_(t <- l) mtr R (mraw t.1) ^+ recorded k t.2).[x] = 0 ->
  exists2 t, List.In t l & (mtr R (mraw t.1)).[x] = 0 /\ recorded k t.2 <> 0%N.
Proof.
elim: l => [|t l IH]; first by rewrite big_nil hornerC => /eqP; rewrite oner_eq0.
rewrite big_cons hornerM => /eqP; rewrite mulf_eq0 => /orP [|/eqP /IH [u I H]]; last by exists u => //; right.
rewrite horner_exp expf_eq0 => /andP [n0 /eqP E]. exists t; first by left. split=> // X. by rewrite X in n0.
Qed.
Lemma roots_ok (x : R) : root_of Gs x <-> exists f, [/\ List.In f F, f <> [::] & polyvalue f x = 0].
Proof.
split.
- move=> [g /Gs_in [q [ix [-> I]]] [_ V]]. have [N Ne O] := B_only I. have [k [f [Hk Hf [u Eu] _]]] := elem_dvd HB I.
  exists f. split=> //; first exact: List.nth_error_In Hk. rewrite polyvalue_tr (mtr_mul R Eu) hornerM -(value_mtr x N O) V. exact: mulr0.
- move=> [f [If Hf]]. have [k Hk] := List.In_nth_error _ _ If. have [c c0 E] := basis_product R HB Hk Hf.
  rewrite polyvalue_tr E hornerZ => /eqP. rewrite mulf_eq0 (negPf c0) /= => /eqP /prod_root [[q ix] I [V _]]. have [N Ne O] := B_only I.
  exists (up q); first exact: (List.in_map (fun t : Mono.poly Z * occurrences => up t.1) _ _ I). rewrite (value_mtr x N O). split=> // C.
  have [E1 U1 _] := only_upoly Hvo HS usrt N O. have := constant_number U1 C. move: V. rewrite /= -(value_mtr x N O).
  case Eu: (up q) U1 => [|[e a] [|t w]] //= U1; first by move=> _ _; apply: Ne; rewrite -E1 Eu.
  rewrite /value big_cons big_nil /= => V /Z.eqb_eq e0. move: V. rewrite e0 expr0 mulr1 addr0 => /eqP. have [/= _ a0] := n_in U1 (or_introl erefl).
  change (zr R a == 0 -> False). rewrite -(zr_0 R) zr_eq. by move/Z.eqb_eq.
Qed.
Lemma mult_ok i q ix (r : R) k f : List.nth_error B i = Some (q, ix) -> (mtr R (mraw q)).[r] = 0 -> (mtr R (mraw q))^`().[r] <> 0 ->
  List.nth_error F k = Some f -> f <> [::] -> root_multiplicity f r (recorded k ix).
Proof.
move=> Hi /eqP V D Hk Hf. have [c c0 E] := basis_product R HB Hk Hf.
have /factor_theorem [w Ew] : root (mtr R (mraw q)) r by [].
have w0 : w.[r] != 0.
  apply/eqP => w0. apply: D. by rewrite Ew derivM derivXsubC mulr1 hornerD hornerM w0 hornerXsubC subrr mulr0 addr0.
have [l1 [l2 [EB Ln]]] := List.nth_error_split B i Hi.
have Hnz : forall l, (forall t, List.In t l -> (mtr R (mraw t.1)).[r] <> 0) -> (\prod_(t <- l) mtr R (mraw t.1) ^+ recorded k t.2).[r] <> 0.
  move=> l Hl /prod_root [t It [Vt _]]. exact: (Hl t It).
have Oth : forall j t, j <> i -> List.nth_error B j = Some t -> (mtr R (mraw t.1)).[r] <> 0.
  move=> j t N Hj. have Cp := B_coprime Hi Hj (nesym N). apply/eqP. exact: (coprimep_root Cp).
have A1 : (\prod_(t <- l1) mtr R (mraw t.1) ^+ recorded k t.2).[r] <> 0.
  apply: Hnz => t It. have [j Hj] := List.In_nth_error _ _ It. have jl : (j < length l1)%coq_nat by apply/List.nth_error_Some; rewrite Hj.
  apply: (Oth j); first lia. by rewrite EB List.nth_error_app1.
have A2 : (\prod_(t <- l2) mtr R (mraw t.1) ^+ recorded k t.2).[r] <> 0.
  apply: Hnz => t It. have [j Hj] := List.In_nth_error _ _ It.
  apply: (Oth (length l1 + j.+1)%N); first by rewrite -Ln; lia. rewrite EB List.nth_error_app2; last lia. by rewrite (_ : (length l1 + j.+1 - length l1)%coq_nat = j.+1) //; lia.
exists (c *: (w ^+ recorded k ix * (\prod_(t <- l1) mtr R (mraw t.1) ^+ recorded k t.2 * \prod_(t <- l2) mtr R (mraw t.1) ^+ recorded k t.2))).
- apply/eqP. rewrite hornerZ !hornerM horner_exp !mulf_neq0 ?expf_neq0 //; exact/eqP.
- move=> y. rewrite polyvalue_tr E EB big_cat big_cons /= Ew exprMn !hornerZ !hornerM !horner_exp hornerXsubC.
  rewrite [RHS]mulrCA; congr (_ * _). by rewrite mulrCA -mulrA mulrCA.
Qed.
Theorem realroot_basis_ok fuel l : uspensky_v fuel Gs = Ok l ->
  exists rs : seq R, [/\ sorted <%R rs, (forall x, x \in rs <-> exists f, [/\ List.In f F, f <> [::] & polyvalue f x = 0]) &
    List.Forall2 (fun t r => holds_root t.1 r /\ forall k f, List.nth_error F k = Some f -> f <> [::] -> root_multiplicity f r (recorded k t.2))
      (List.map (fun t : item => (Uroot (List.nth t.2 Gs [::]) t.1.1 t.1.2, List.nth t.2 (List.map snd B) [::])) l) rs].
Proof.
move=> E. have [rs [Srt M Fa]] := C45_isolation_gives_roots R Gs_up Gs_sqf E. exists rs. split=> //; first by move=> x; rewrite M; exact: roots_ok.
elim: Fa {E Srt M} => [|t r l' rs' [g Hg Hr] _ IH] /=; constructor=> //=.
have -> : List.nth t.2 Gs [::] = g by exact: List.nth_error_nth.
split=> // k f Hk Hf. move: Hg. rewrite /Gs List.nth_error_map. case Eb: (List.nth_error B t.2) => [[q ix]|] //= [Eg].
have -> : List.nth t.2 (List.map snd B) [::] = ix by apply: List.nth_error_nth; rewrite List.nth_error_map Eb.
have [N Ne O] := B_only (List.nth_error_In _ _ Eb). have [_ _ V D _] := Hr. have [E1 U1 _] := only_upoly Hvo HS usrt N O. move: V D. rewrite /= -Eg (slope_tr _ U1) (value_mtr r N O) (up_tr R Hvo HS usrt N O) => V D.
exact: (mult_ok Eb V D Hk Hf).
Qed.
End Roots.
