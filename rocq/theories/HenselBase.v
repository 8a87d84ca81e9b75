(** * The polynomials of Hensel.v seen as mathcomp polynomials over Z. *)
From Verif Require Import Prelude Coef Spec SpecProofs SpecOps SpecOpsProofs GcdDom GcdPoly GcdMath GcdProofs OrderSpec PairVec PairVecProofs MonoStruct MonoStructProofs Heap Poly PolyMulProofs Div PolyDivProofs
  PolyOps PolyOpsProofs ConvertProofs Zp NumSpec ZpProofs GcdHom UGcd UGcdBase UGcdMod Props_Res ExtGcd FactorZp Hensel HenselMath.
From mathcomp Require Import all_ssreflect all_algebra all_field ssrZ.
Import GRing.Theory.
Set Implicit Arguments.
Unset Strict Implicit.
Local Open Scope ring_scope.
Delimit Scope Z_scope with CZ.
Notation ZP := (Mono.poly Z) (only parsing).
Notation PZ := {poly Z}.
Notation unz := (normal uok (m_gt uniS) Zc).
Lemma HKz : ring_ok Zc. Proof. exact: domain_ring Zc_domain. Qed.
Definition PF : coefs PZ := Coefs PZ 0 1 (fun a b => a + b) (fun a b => a * b) (fun a b => a - b) (fun a => - a) (fun a b => a == b) (fun a _ => a) (fun _ _ => 0).
Lemma PF_ring : ring_ok PF.
Proof.
split; last by move=> a b; split=> [/eqP|/eqP].
split=> /=; intros; rewrite ?add0r ?mul1r ?mulrDl ?subrr //; [exact: addrC|exact: addrA|exact: mulrC|exact: mulrA].
Qed.
Notation phiC := (fun c : Z => (c%:P : PZ)).
Definition toP (r : rpoly Z) : PZ := reval PF (fun _ => 'X) (rmapc phiC r).
Lemma phiC0 : phiC (c0 Zc) = c0 PF. Proof. exact: polyC0. Qed.
Lemma phiCD a b : phiC (cadd Zc a b) = cadd PF (phiC a) (phiC b). Proof. exact: polyCD. Qed.
Lemma phiCM a b : phiC (cmul Zc a b) = cmul PF (phiC a) (phiC b). Proof. exact: polyCM. Qed.
Lemma toP_req (f g : rpoly Z) : req Zc f g -> toP f = toP g.
Proof.
move=> E. rewrite /toP. have E' := rmapc_proper Zc PF phiC phiC0 phiCD _ _ E.
rewrite !(reval_rsum PF). exact: (rsum_req PF PF_ring _ (meval_proper PF PF_ring _) _ _ E').
Qed.
Lemma toP_mul (f g : rpoly Z) : toP (rmul Zc f g) = toP f * toP g.
Proof.
rewrite /toP. have E' := rmapc_mul Zc PF phiC phiC0 phiCD phiCM f g (rmul Zc f g) (fun _ => erefl).
transitivity (reval PF (fun _ => 'X) (rmul PF (rmapc phiC f) (rmapc phiC g))).
- rewrite !(reval_rsum PF). exact: (rsum_req PF PF_ring _ (meval_proper PF PF_ring _) _ _ E').
- exact: (reval_mul PF PF_ring).
Qed.
Lemma toP_add (f g : rpoly Z) : toP (radd f g) = toP f + toP g.
Proof. rewrite /toP /rmapc /radd map_app. exact: (reval_add PF PF_ring). Qed.
Lemma toP_const c : toP (rconst c) = c%:P.
Proof. by rewrite /toP /= mulr1 addr0. Qed.
Lemma cpow_X n : cpow PF 'X n = 'X^n.
Proof. by elim: n => [|n IH] //=; rewrite IH exprS. Qed.
Definition T (l : upz) : PZ := toP (graw usm l).
Lemma T_nil : T [::] = 0. Proof. by []. Qed.
Lemma T_cons e c (l : upz) : T ((e, c) :: l) = c *: 'X^(Z.to_nat e) + T l.
Proof. by rewrite /T /toP /= mulr1 cpow_X mul_polyC Z_N_nat. Qed.
Lemma T_cat (l1 l2 : upz) : T (l1 ++ l2) = T l1 + T l2.
Proof. elim: l1 => [|[e c] l1 IH]; first by rewrite T_nil add0r. by rewrite cat_cons !T_cons IH addrA. Qed.
Lemma T_coef (l : upz) i : List.Forall (fun t => uok (fst t)) l -> (T l)`_i = coef Zc (graw usm l) (usm (Z.of_nat i)).
Proof.
elim: l => [|[e c] l IH] H; first by rewrite T_nil coef0.
have He : (0 <= e)%CZ := List.Forall_inv H.
rewrite T_cons coefD coefZ coefXn IH; last exact: List.Forall_inv_tail H.
rewrite /=. have -> : meqb [:: (0%num, Z.to_N e)] (usm (Z.of_nat i)) = (i == Z.to_nat e).
  case: (meqb_spec [:: (0%num, Z.to_N e)] (usm (Z.of_nat i))) => E.
  - have := E 0%num. rewrite /usm /=. move=> X. apply/esym/eqP. lia.
  - apply/esym/eqP => X. apply: E => v. rewrite /usm /= X. case: (N.eqb_spec 0 v) => _ //. lia.
case: (i == _); first by rewrite mulr1.
by rewrite mulr0 add0r.
Qed.
Lemma n_ok (l : upz) : unz l -> List.Forall (fun t => uok (fst t)) l. Proof. by case. Qed.
Lemma n_in (l : upz) t : unz l -> List.In t l -> (0 <= fst t)%CZ /\ snd t <> 0%CZ. Proof. exact: (unin Zc). Qed.
Lemma n_head (e c : Z) (l : upz) t : unz ((e, c) :: l) -> List.In t l -> (0 <= fst t < e)%CZ.
Proof. exact: (uhead_lt Zc (e, c) l t). Qed.
Lemma n_tl t (l : upz) : unz (t :: l) -> unz l. Proof. exact: (unorm_tl Zc). Qed.
Lemma n_cons (e c : Z) (l : upz) : (0 <= e)%CZ -> c <> 0%CZ -> (forall t, List.In t l -> (fst t < e)%CZ) -> unz l -> unz ((e, c) :: l).
Proof.
move=> H0 Hc H N. apply/(normal_cons uok (m_gt uniS) Zc). split=> //. split=> //. split=> //. apply/List.Forall_forall => t Ht. rewrite /=. have := H t Ht. lia.
Qed.
Lemma n_nil : unz ([::] : upz). Proof. by split; [|split]; constructor. Qed.
Lemma T_high (l : upz) i : unz l -> (forall t, List.In t l -> (fst t < Z.of_nat i)%CZ) -> (T l)`_i = 0.
Proof.
elim: l => [|[e c] l IH] N H; first by rewrite T_nil coef0.
rewrite T_cons coefD coefZ coefXn IH; [|exact: n_tl N|by move=> t Ht; apply: H; right].
have := H (e, c) (or_introl erefl). have [/= He _] := n_in N (or_introl erefl). move=> L.
have -> : (i == Z.to_nat e) = false by apply/eqP; lia. by rewrite mulr0 addr0.
Qed.
Lemma T_top e c (l : upz) : unz ((e, c) :: l) -> (T ((e, c) :: l))`_(Z.to_nat e) = c.
Proof.
move=> N. have [/= He Hc] := n_in N (or_introl erefl).
rewrite T_cons coefD coefZ coefXn eqxx mulr1 T_high ?addr0 //; first exact: n_tl N. move=> t Ht. have := n_head N Ht. lia.
Qed.
Lemma T_size e c (l : upz) : unz ((e, c) :: l) -> size (T ((e, c) :: l)) = (Z.to_nat e).+1.
Proof.
move=> N. have [/= He Hc] := n_in N (or_introl erefl). have Hd := T_top N.
apply/eqP. rewrite eqn_leq. apply/andP. split.
- apply/leq_sizeP => j Hj. apply: T_high => // t [<-|Ht] /=; first lia. have := n_head N Ht. lia.
- rewrite ltnNge. apply/negP => L. apply: Hc. rewrite -Hd. by apply: nth_default.
Qed.
Lemma T_lead e c (l : upz) : unz ((e, c) :: l) -> lead_coef (T ((e, c) :: l)) = c.
Proof. move=> N. by rewrite lead_coefE T_size // -pred_Sn T_top. Qed.
Lemma T_deg (l : upz) : unz l -> udeg l = Z.of_nat (size (T l)).-1.
Proof.
case: l => [|[e c] l] N; first by rewrite T_nil size_poly0. rewrite T_size //= Z2Nat.id //. by have [/= He _] := n_in N (or_introl erefl).
Qed.
Lemma T_in (l : upz) e c : unz l -> List.In (e, c) l -> (T l)`_(Z.to_nat e) = c.
Proof.
elim: l => [|[e' c'] l IH] N //= [[<- <-]|H]; first exact: T_top.
have [/= He' _] := n_in N (or_introl erefl). have /= He := n_head N H.
rewrite T_cons coefD coefZ coefXn (IH (n_tl N) H). have -> : (Z.to_nat e == Z.to_nat e') = false by apply/eqP; lia.
by rewrite mulr0 add0r.
Qed.
(** ** The operations *)
Lemma hmul_ok (f g : upz) : unz f -> unz g -> exists r, [/\ hmul f g = Ok r, unz r & T r = T f * T g].
Proof.
move=> Nf Ng. have [r [E [N R]]] := p_mul_ok uniS uok usm Zc uniS_ok HKz Zc_domain no_compress f g (conj I I) Nf Ng.
exists r. split=> //. by rewrite /T (toP_req R) toP_mul.
Qed.
Lemma hadd_ok (f g : upz) : unz f -> unz g -> unz (hadd f g) /\ T (hadd f g) = T f + T g.
Proof.
move=> Nf Ng. split; first exact: (p_add_normal uniS uok usm Zc uniS_ok HKz).
rewrite /T -toP_add. apply: toP_req. exact: (p_add_req uniS uok usm Zc uniS_ok HKz).
Qed.
Lemma toP_opp (g : rpoly Z) : toP (ropp Zc g) = - toP g.
Proof.
elim: g => [|[m c] g IH]; first by rewrite /toP /= oppr0.
have C (x : smono) (d : Z) (l : rpoly Z) : toP ((x, d) :: l) = d%:P * meval PF (fun _ => 'X) x + toP l by [].
change (ropp Zc ((m, c) :: g)) with ((m, - c) :: ropp Zc g). by rewrite !C IH polyCN mulNr opprD.
Qed.
Lemma hsub_ok (f g : upz) : unz f -> unz g -> unz (hsub f g) /\ T (hsub f g) = T f - T g.
Proof.
move=> Nf Ng. split; first exact: (p_sub_normal uniS uok usm Zc uniS_ok HKz).
rewrite /T -toP_opp -toP_add. apply: toP_req. exact: (p_sub_req uniS uok usm Zc uniS_ok HKz).
Qed.
(** ** Congruences *)
Definition Padd (a b : PZ) : PZ := a + b. Definition Pmul (a b : PZ) : PZ := a * b. Definition Psub (a b : PZ) : PZ := a - b. Definition Popp (a : PZ) : PZ := - a.
Lemma RT : Ring_theory.ring_theory (0 : PZ) 1 Padd Pmul Psub Popp eq.
Proof. rewrite /Padd /Pmul /Psub /Popp. split=> *; rewrite ?add0r ?mul1r ?mulrDl ?subrr //; [exact: addrC|exact: addrA|exact: mulrC|exact: mulrA]. Qed.
Definition cgz (m : Z) (a b : PZ) : Prop := cg PZ Padd Pmul m%:P a b.
Lemma cgz_refl m a : cgz m a a. Proof. exact: (cg_refl _ _ _ _ _ _ _ RT). Qed.
Lemma cgz_sym m a b : cgz m a b -> cgz m b a. Proof. exact: (cg_sym _ _ _ _ _ _ _ RT). Qed.
Lemma cgz_trans m b a c : cgz m a b -> cgz m b c -> cgz m a c. Proof. exact: (cg_trans _ _ _ _ _ _ _ RT). Qed.
Lemma cgz_add m a b c d : cgz m a b -> cgz m c d -> cgz m (a + c) (b + d). Proof. exact: (cg_add _ _ _ _ _ _ _ RT). Qed.
Lemma cgz_sub m a b c d : cgz m a b -> cgz m c d -> cgz m (a - c) (b - d). Proof. exact: (cg_sub _ _ _ _ _ _ _ RT). Qed.
Lemma cgz_mul m a b c d : cgz m a b -> cgz m c d -> cgz m (a * c) (b * d). Proof. exact: (cg_mul _ _ _ _ _ _ _ RT). Qed.
Lemma cgz_weak m n a b : cgz (m * n)%CZ a b -> cgz m a b.
Proof. move=> [c E]. exists (n%:P * c). rewrite E. congr Padd. rewrite /Pmul mulrA -polyCM. done. Qed.
Lemma cgz_coef m (a b : PZ) i : cgz m a b -> (m | a`_i - b`_i)%CZ.
Proof. move=> [c ->]. exists (c`_i). rewrite /Padd /Pmul coefD coefCM. change ((b`_i + m * c`_i - b`_i)%CZ = (c`_i * m)%CZ). lia. Qed.
Lemma coef_cgz m (a b : PZ) : (m <> 0)%CZ -> (forall i, (m | a`_i - b`_i)%CZ) -> cgz m a b.
Proof.
move=> m0 H. exists (\poly_(i < maxn (size a) (size b)) ((a`_i - b`_i) / m)%CZ). rewrite /Padd /Pmul. apply/polyP => i.
rewrite coefD coefCM coef_poly. case: ltnP => L.
- have [k E] := H i. rewrite E Z.div_mul //. change (a`_i = (b`_i + m * k)%CZ). lia.
- move: L. rewrite geq_max => /andP[L1 L2]. by rewrite !nth_default // mulr0 addr0.
Qed.
Lemma cgz_scale m (a b : Z) (P : PZ) : (m | a - b)%CZ -> cgz m (a *: P) (b *: P).
Proof. move=> [k E]. exists (k *: P). rewrite /Padd /Pmul mul_polyC scalerA -scalerDl. congr (_ *: _). change (a = (b + m * k)%CZ). lia. Qed.
(** ** Coefficient-wise maps *)
Definition fmap (h : Z -> Z) (f : upz) : upz := flat_map (fun t => keep (fst t) (h (snd t))) f.
Lemma fmap_in h f t : List.In t (fmap h f) -> exists c, List.In (fst t, c) f /\ snd t = h c /\ h c <> 0%CZ.
Proof.
elim: f => [|[e c] f IH] //= /List.in_app_iff[|/IH[c' [H1 H2]]]; last by exists c'; split=> //; right.
rewrite /keep. case: Z.eqb_spec => // Hc [<-|//]. exists c. by split; [left|].
Qed.
Lemma fmap_norm h f : unz f -> unz (fmap h f).
Proof.
elim: f => [|[e c] f IH] N //=. have Nf := IH (n_tl N). have [/= He _] := n_in N (or_introl erefl).
rewrite /keep. case: Z.eqb_spec => // Hc. apply: n_cons => // t /fmap_in[c' [H _]]. have := n_head N H. rewrite /=. lia.
Qed.
Lemma fmap_coef h f i : unz f -> h 0%CZ = 0%CZ -> (T (fmap h f))`_i = h (T f)`_i.
Proof.
move=> N H0. elim: f N => [|[e c] f IH] N; first by rewrite T_nil coef0 H0.
have Nf := n_tl N. have [/= He _] := n_in N (or_introl erefl). rewrite /= T_cat T_cons coefD coefD (IH Nf) coefZ coefXn.
have -> : (T (keep e (h c)))`_i = h c * (i == Z.to_nat e)%:R.
  rewrite /keep. case: Z.eqb_spec => [->|_]; first by rewrite T_nil coef0 mul0r. by rewrite T_cons T_nil addr0 coefZ coefXn.
case: eqP => [->|Ne]; last by rewrite !mulr0 !add0r.
rewrite !mulr1 T_high ?addr0 ?H0 ?addr0 //. move=> t Ht. have := n_head N Ht. lia.
Qed.
Lemma mod_ok m f : (1 < m)%CZ -> unz f -> [/\ unz (mod_coeff m f), cgz m (T (mod_coeff m f)) (T f) & forall i, (0 <= (T (mod_coeff m f))`_i < m)%CZ].
Proof.
move=> m1 N. have C i : (T (mod_coeff m f))`_i = ((T f)`_i mod m)%CZ by apply: (@fmap_coef (fun c => c mod m)%CZ).
split; first exact: (@fmap_norm (fun c => c mod m)%CZ).
- apply: coef_cgz; first lia. move=> i. rewrite C. exists (- ((T f)`_i / m))%CZ. have := Z.div_mod (T f)`_i m. lia.
- move=> i. rewrite C. apply: Z.mod_pos_bound. lia.
Qed.
Lemma div_ok m f E : (1 < m)%CZ -> unz f -> T f = m%:P * E -> unz (div_coeff m f) /\ cgz m (T (div_coeff m f)) E.
Proof.
move=> m1 N EE. have C i : (T (div_coeff m f))`_i = (((T f)`_i / m) mod m)%CZ by apply: (@fmap_coef (fun c => (c / m) mod m)%CZ).
split; first exact: (@fmap_norm (fun c => (c / m) mod m)%CZ).
apply: coef_cgz; first lia. move=> i. rewrite C EE coefCM. change (m | ((m * E`_i) / m) mod m - E`_i)%CZ.
rewrite Z.mul_comm Z.div_mul; last lia. exists (- (E`_i / m))%CZ. have := Z.div_mod E`_i m. lia.
Qed.
Lemma mul_coeff_ok m f : (1 < m)%CZ -> unz f -> unz (mul_coeff m f) /\ T (mul_coeff m f) = m%:P * T f.
Proof.
move=> m1. elim: f => [|[e c] f IH] N; first by rewrite T_nil mulr0.
have [IH1 IH2] := IH (n_tl N). have [/= He Hc] := n_in N (or_introl erefl). split.
- apply: n_cons => //; first by rewrite /=; nia. move=> t /List.in_map_iff[u [<- Hu]]. have := n_head N Hu. rewrite /=. lia.
- rewrite [mul_coeff _ _]/= !T_cons IH2 mulrDr. congr (_ + _). by rewrite mul_polyC scalerA mulrC.
Qed.
