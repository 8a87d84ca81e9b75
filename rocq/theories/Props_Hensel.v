(** * C52: quadratic Hensel lifting of a factorization modulo a prime. *)
From Coq Require Znumtheory Zpow_facts.
From Verif Require Import Prelude Coef Spec SpecProofs SpecOps SpecOpsProofs GcdDom GcdPoly GcdMath GcdProofs OrderSpec PairVec PairVecProofs MonoStruct MonoStructProofs Heap Poly PolyMulProofs Div PolyDivProofs
  PolyOps PolyOpsProofs ConvertProofs Zp NumSpec ZpProofs DenseSparse UGcd ExtGcd ExtGcdProofs Props_Div FactorZp FzpMath FactorZpBase Hensel HenselMath HenselBase HenselDiv HenselStep HenselTree HenselBuild.
From mathcomp Require Import all_ssreflect all_algebra all_field ssrZ.
Import GRing.Theory.
Set Implicit Arguments.
Unset Strict Implicit.
Local Open Scope ring_scope.
Delimit Scope Z_scope with CZ.

(** ** Specification.  A polynomial over Z is a list of (exponent, coefficient), highest exponent first, no zero
    coefficient; [graw usm f] is the polynomial it denotes. *)
Definition znormal (f : list (Z * Z)) : Prop := normal uok (m_gt uniS) Zc f.
Definition pnormal (p : Z) (Hp : modulus p) (f : list (Z * zpc p)) : Prop := normal uok (m_gt uniS) (Zpc p Hp) f.
(** the coefficient of x^n *)
Definition xcoef (r : rpoly Z) (n : Z) : Z := coef Zc r (usm n).
Fixpoint zproduct (L : list (list (Z * Z))) : rpoly Z :=
  match L with [::] => rconst 1%CZ | f :: L => rmul Zc (graw usm f) (zproduct L) end.
(** f = c * (product of L) modulo m *)
Definition factors_mod (m : Z) (f : list (Z * Z)) (c : Z) (L : list (list (Z * Z))) : Prop :=
  forall n, (0 <= n)%CZ -> (m | xcoef (graw usm f) n - c * xcoef (zproduct L) n)%CZ.
Definition monic_poly (f : list (Z * Z)) : Prop := match f with [::] => False | t :: _ => snd t = 1%CZ end.
(** the leading coefficient *)
Definition lead (f : list (Z * Z)) : Z := match f with [::] => 0%CZ | t :: _ => snd t end.
(** all coefficients are residues modulo m *)
Definition in_range (m : Z) (f : list (Z * Z)) : Prop := List.Forall (fun t => (0 <= snd t < m)%CZ) f.
(** the residues of a polynomial over Z/p *)
Definition residues (p : Z) (f : list (Z * zpc p)) : list (Z * Z) := map (fun t => (fst t, proj1_sig (snd t))) f.
(** common divisors have degree 0 *)
Definition coprime_mod (p : Z) (Hp : modulus p) (f g : list (Z * zpc p)) : Prop :=
  forall d, pnormal Hp d -> rdivides (Zpc p Hp) (graw usm d) (graw usm f) -> rdivides (Zpc p Hp) (graw usm d) (graw usm g) -> udeg d = 0%CZ.
(** the documentation of mpz_invert *)
Definition invert_documented (invert : Z -> Z -> option Z) : Prop :=
  forall a m, (1 < m)%CZ -> Z.gcd a m = 1%CZ -> exists r, invert a m = Some r /\ (0 <= r < m)%CZ /\ ((a * r) mod m = 1)%CZ.

Notation unz := (normal uok (m_gt uniS) Zc).
Notation TZ := HenselBase.T.
Lemma TZ_xcoef l i : unz l -> (TZ l)`_i = xcoef (graw usm l) (Z.of_nat i).
Proof. move=> N. rewrite /xcoef. apply: HenselBase.T_coef. exact: HenselBase.n_ok. Qed.
Lemma zprod_norm L : List.Forall unz L -> exists r, [/\ unz r, TZ r = prodT L & req Zc (graw usm r) (zproduct L)].
Proof.
elim: L => [|f L IH] H.
- exists [:: (0, 1)%CZ]. split; [exact: unz1|exact: T1|]. move=> n. rewrite /=. case: (meqb_spec [:: (0%num, 0%num)] n) => E1; case: (meqb_spec [::] n) => E2 //; exfalso.
  + apply: E2 => v. rewrite -E1 /=. by case: (N.eqb_spec 0 v).
  + apply: E1 => v. rewrite -E2 /=. by case: (N.eqb_spec 0 v).
- have [r [N1 T1' R1]] := IH (List.Forall_inv_tail H). have Nf := List.Forall_inv H.
  have [s [E [N R]]] := p_mul_ok uniS uok usm Zc uniS_ok HKz Zc_domain no_compress f r (conj I I) Nf N1.
  have [s' [E' _ T']] := hmul_ok Nf N1. have Es : s' = s by move: E'; rewrite /hmul E => -[].
  exists s. split=> //; first by rewrite -Es T' T1'.
  move=> n. rewrite R. exact: (rmul_proper Zc HKz _ _ (fun m => erefl) _ _ R1 n).
Qed.
Lemma factors_cgz m f c L : (m <> 0)%CZ -> unz f -> List.Forall unz L -> (factors_mod m f c L <-> cgz m (TZ f) (c *: prodT L)).
Proof.
move=> m0 Nf NL. have [r [Nr Tr Rr]] := zprod_norm NL.
have C i : xcoef (zproduct L) (Z.of_nat i) = (prodT L)`_i by rewrite -Tr TZ_xcoef // /xcoef Rr.
split.
- move=> H. apply: coef_cgz => // i. have := H (Z.of_nat i) (Nat2Z.is_nonneg i). rewrite -TZ_xcoef // C coefZ. done.
- move=> H n Hn. have := cgz_coef (Z.to_nat n) H. rewrite TZ_xcoef // coefZ -C Z2Nat.id //.
Qed.
Lemma mul_coeff_ok' m f : (m <> 0)%CZ -> unz f -> unz (mul_coeff m f) /\ TZ (mul_coeff m f) = m%:P * TZ f.
Proof.
move=> m0. elim: f => [|[e c] f IH] N; first by rewrite HenselBase.T_nil mulr0.
have [IH1 IH2] := IH (HenselBase.n_tl N). have [/= He Hc] := HenselBase.n_in N (or_introl erefl). split.
- apply: HenselBase.n_cons => //; first by rewrite /=; move: Hc m0; clear; nia. move=> t /List.in_map_iff[u [<- Hu]]. have := HenselBase.n_head N Hu. rewrite /=. clear. lia.
- rewrite [mul_coeff _ _]/= !HenselBase.T_cons IH2 mulrDr. congr (_ + _). by rewrite mul_polyC scalerA mulrC.
Qed.
Section Main.
Variable invert : Z -> Z -> option Z.
Hypothesis Hinv : invert_documented invert.
Lemma lift_loop_mono target f : forall n j tr m x, lift_loop invert n target f tr m = Ok x -> lift_loop invert (n + j) target f tr m = Ok x.
Proof.
elim=> [|n IH] j tr m x.
- case: j => [//|j] /=. by case: (_ <=? _)%CZ.
- rewrite addSn /=. case: (_ <=? _)%CZ => //. case: (lift_rec invert tr f m) => [tr'| | |] //=. exact: IH.
Qed.
Lemma first_ok M e c l rest : (1 < M)%CZ -> unz ((e, c) :: l) -> (0 < c < M)%CZ -> reduced M ((e, c) :: l) -> Z.gcd c M = 1%CZ ->
  exists i l', [/\ monic_first invert (((e, c) :: l) :: rest) M = Ok (l' :: rest), mleaf M l', cgz M (TZ l') (i *: TZ ((e, c) :: l)) & (M | c * i - 1)%CZ].
Proof.
move=> M1 N Hc R G. rewrite /monic_first. change (snd (e, c)) with c. case: Z.eqb_spec => Ec.
- exists 1%CZ, ((e, c) :: l). split=> //; first by split=> //; exists e, l; rewrite Ec.
  + rewrite scale1r. exact: cgz_refl.
  + rewrite Ec. exact: Z.divide_0_r.
- have [i [E [Hi Ei]]] := Hinv M1 G. rewrite E.
  have i0 : (i <> 0)%CZ by move=> X; move: Ei; rewrite X Z.mul_0_r Z.mod_0_l //; move: M1; clear; lia.
  have [N1 E1] := mul_coeff_ok' i0 N. have [N2 C2 R2] := HenselBase.mod_ok M1 N1.
  exists i, (mod_coeff M (mul_coeff i ((e, c) :: l))). split=> //.
  + split=> //. exists e, (mod_coeff M (mul_coeff i l)). by rewrite /mod_coeff /mul_coeff /= /keep Ei.
  + apply: cgz_trans C2 _. rewrite E1 mul_polyC. exact: cgz_refl.
  + exists ((c * i) / M)%CZ. have := Z.div_mod (c * i) M. rewrite Ei. move: M1. clear. lia.
Qed.
Lemma monic_deg m (a b : list (Z * Z)) : (1 < m)%CZ -> unz a -> unz b -> monicz a -> monicz b -> cgz m (TZ a) (TZ b) -> udeg a = udeg b.
Proof.
move=> m1. suff L : forall a b, unz a -> unz b -> monicz a -> monicz b -> cgz m (TZ a) (TZ b) -> (udeg a <= udeg b)%CZ.
  move=> Na Nb Ma Mb C. have := L a b Na Nb Ma Mb C. have := L b a Nb Na Mb Ma (cgz_sym C). clear. lia.
move=> {}a {}b Na Nb [e [r Ea]] [e' [r' Eb]] C. rewrite Ea in Na C *. rewrite Eb in Nb C *. rewrite /=.
apply/Z.nlt_ge => L. have D := cgz_coef (Z.to_nat e) C. rewrite HenselBase.T_top // in D.
have X : (m | 1)%CZ.
  apply: dvd_r D _. apply: HenselBase.T_high => // t [<-|Ht] /=; first by move: L; clear; lia. have := HenselBase.n_head Nb Ht. move: L. clear. lia.
have := Z.divide_pos_le _ _ Z.lt_0_1 X. move: m1. clear. lia.
Qed.
Context (p : Z) (Hp : modulus p) (Pr : Znumtheory.prime p).
Notation K := (Zpc p Hp).
Notation zup := (list (Z * zpc p)).
Variable srt : zup -> zup.
Notation TF := (@FactorZpBase.T p).
Lemma copr_of (f g : zup) : pnormal Hp f -> pnormal Hp g -> TF f != 0 -> coprime_mod Hp f g -> copr f g.
Proof.
move=> Nf Ng Zf H. have [d [Nd Td]] := FactorZpBase.T_surj Hp Pr (gcdp (TF f) (TF g)).
have := H d Nd. rewrite /copr /coprimep -Td.
have D1 : TF d %| TF f by rewrite Td dvdp_gcdl. have D2 : TF d %| TF g by rewrite Td dvdp_gcdr.
move=> /(_ (T_dvd Pr Nf Nd D1) (T_dvd Pr Ng Nd D2)). rewrite (FactorZpBase.T_deg Pr Nd) => E.
have Z0 : TF d != 0 by apply: contraNneq Zf => X; move: D1; rewrite X dvd0p.
move: Z0 E. rewrite -size_poly_gt0. case: (size (TF d)) => [|[|k]] // _ E.
Qed.
Lemma fop_impl fs : List.Forall (fun h => pnormal Hp h /\ TF h != 0) fs -> List.ForallOrdPairs (coprime_mod Hp) fs -> List.ForallOrdPairs (@copr p) fs.
Proof.
elim: fs => [|f fs IH] A H; first by constructor. inversion H as [|? ? H1 H2]; subst. have [Nf Zf] := List.Forall_inv A. have A' := List.Forall_inv_tail A.
constructor; last exact: IH. apply/List.Forall_forall => g Hg. have [Ng _] := (List.Forall_forall _ _).1 A' g Hg.
apply: copr_of => //. exact: ((List.Forall_forall _ _).1 H1).
Qed.
Lemma scale_norm (c : zpc p) f : phi c != 0 -> pnormal Hp f -> pnormal Hp (map (fun u => (fst u, cmul K (snd u) c)) f).
Proof.
move=> Hc. elim: f => [|[e x] f IH] N; first exact: (FactorZpBase.n_nil Hp).
have [/= He Hx] := FactorZpBase.n_in N (or_introl erefl). apply: FactorZpBase.n_cons => //.
- move=> E. have : phi x * phi c = 0 := etrans (esym (phi_mul Hp Pr x c)) (etrans (congr1 (@phi p) E) (phi_0 Hp Pr)). move/eqP. rewrite mulf_eq0 (negbTE Hc) orbF => /eqP /(phi_eq0 Hp Pr) //.
- move=> t /List.in_map_iff[u [<- Hu]]. have [_ H] := FactorZpBase.n_head N Hu. exact: H.
- exact: IH (FactorZpBase.n_tl N).
Qed.
Lemma cgz_scaler m (a : Z) (P Q : {poly Z}) : cgz m P Q -> cgz m (a *: P) (a *: Q).
Proof. move=> C. rewrite -!mul_polyC. apply: cgz_mul => //. exact: cgz_refl. Qed.
Lemma cgz_one m (a b : Z) (P : {poly Z}) : (m | a * b - 1)%CZ -> cgz m (a *: (b *: P)) P.
Proof. move=> D. rewrite scalerA -[X in cgz _ _ X]scale1r. apply: cgz_scale. exact: D. Qed.
Theorem C52_hensel_lift : forall f factors target,
  znormal f -> f <> [::] -> ~ (p | lead f)%CZ ->
  (2 <= length factors)%coq_nat -> List.Forall (fun h => pnormal Hp h /\ monic_poly (residues h)) factors ->
  List.ForallOrdPairs (coprime_mod Hp) factors ->
  factors_mod p f (lead f) (map (@residues p) factors) ->
  exists L k, terminates_with (fun fuel => hensel_lift invert p Hp srt fuel f factors target) (L, p ^ 2 ^ Z.of_nat k)%CZ /\
    let m := (p ^ 2 ^ Z.of_nat k)%CZ in
    (target < m)%CZ /\
    factors_mod m f (lead f) L /\
    List.Forall (fun l => [/\ znormal l, monic_poly l & in_range m l]) L /\
    List.Forall2 (fun l h => udeg l = udeg h /\ forall n, (0 <= n)%CZ -> (p | xcoef (graw usm l) n - xcoef (graw usm (residues h)) n)%CZ) L factors.
Proof.
move=> f fs target Nf Fn Hlc L2 Hfs Hco Hprod.
case: f Nf Fn Hlc Hprod => [//|[ef cf] f] Nf _ Hlc Hprod. change (lead ((ef, cf) :: f)) with cf in *.
have p1 : (1 < p)%CZ by case: Hp; clear; lia. have p0 : (p <> 0)%CZ by move: p1; clear; lia.
have LM h : monic_poly (residues h) -> lmonic Hp h.
  case: h => [//|[e x] h] /= E. exists e, h. by rewrite (zpc_one Hp E).
have A h : pnormal Hp h /\ monic_poly (residues h) -> [/\ pnormal Hp h, TF h \is monic & TF h != 0].
  move=> [N M]. have MM := lmonic_T Pr N (LM h M). split=> //. exact: monic_neq0.
have {A} Hfs' : List.Forall (fun h => [/\ pnormal Hp h, TF h \is monic & TF h != 0]) fs by apply: List.Forall_impl Hfs => h; exact: A.
have HLM : List.Forall (fun h => pnormal Hp h /\ lmonic Hp h) fs by apply: List.Forall_impl Hfs => h [H1 H2]; split=> //; exact: LM.
have FOP : List.ForallOrdPairs (@copr p) fs by apply: fop_impl => //; apply: List.Forall_impl Hfs' => h [].
have NZ : List.Forall unz (map (@residues p) fs).
  apply/List.Forall_map. apply: List.Forall_impl Hfs' => h [Nh _ _]. exact: (zz_norm Pr Nh).
have CP := (factors_cgz cf p0 Nf NZ).1 Hprod.
case: fs L2 Hfs Hco Hprod Hfs' HLM FOP NZ CP => [|f0 ft] L2 _ _ _ Hfs' HLM FOP NZ CP; first by move: L2; clear; rewrite /=; lia.
set c := zpc_of p Hp cf. have Ec : phi c = psi p cf by exact: phi_of.
have c0 : phi c != 0.
  apply/negP => /eqP X. apply: Hlc. have PZ : psi p 0%CZ = 0 := rmorph0 (psiR p). have PE : psi p cf = psi p 0%CZ by rewrite -Ec X PZ.
  have PD := psi_eq Hp Pr PE. rewrite Z.sub_0_r in PD. exact: PD.
have [N0 M0 Z0] := List.Forall_inv Hfs'. have Ht := List.Forall_inv_tail Hfs'.
set b0 := map (fun u => (fst u, cmul K (snd u) c)) f0.
have Nb : pnormal Hp b0 by exact: scale_norm. have Tb : TF b0 = phi c *: TF f0 by exact: FactorZpBase.T_scale.
have EB : bake_lc p Hp srt cf (f0 :: ft) = b0 :: ft.
  rewrite /bake_lc. congr cons. exact: (znorm_id Pr srt Nb).
have PRE : tree_pre Hp (b0 :: ft).
  split.
  - constructor=> //. by apply: List.Forall_impl Ht => h [].
  - constructor; first by rewrite Tb scaler_eq0 negb_or c0. by apply: List.Forall_impl Ht => h [].
  - by apply: List.Forall_impl Ht => h [].
  - inversion FOP as [|? ? H1 H2]; subst. constructor=> //. apply: List.Forall_impl H1 => h. by rewrite /copr Tb coprimepZl.
have [N [tr [Etr trn Ltr Itr]]] := tree_ok Pr srt (n := length (f0 :: ft)) (fs := b0 :: ft) L2 (le_n _) PRE.
have I0 : tinv p ((ef, cf) :: f) tr.
  apply: Itr. apply: (mp_cgz Hp Pr). rewrite pF_zz [pF _]/= Tb Ec. have := cgz_mp Hp Pr CP. rewrite /mp map_polyZ => ->.
  have := pF_zz (f0 :: ft). rewrite /mp => ->. by rewrite /= scalerAl.
set n := Z.to_nat (Z.max target 0).
have Hn : (target < p * 2 ^ Z.of_nat n)%CZ.
  have := Z.pow_gt_lin_r 2 (Z.of_nat n) (erefl _) (Nat2Z.is_nonneg n). have : (target <= Z.of_nat n)%CZ by rewrite /n; clear; lia.
  move: p1. set w := (2 ^ Z.of_nat n)%CZ. move: (Nat2Z.is_nonneg n). clear. nia.
have [tr' [k [El Tl Il Ll Ql]]] := lift_loop_ok Hinv Nf p1 I0 Hn.
set M := (p ^ 2 ^ Z.of_nat k)%CZ in El Tl Il Ll *.
have K0 : (0 < 2 ^ Z.of_nat k)%CZ by apply: Z.pow_pos_nonneg => //; exact: Nat2Z.is_nonneg.
have M1 : (1 < M)%CZ by apply: (Z.pow_gt_1 _ _ p1).1.
have Mn0 : (M <> 0)%CZ by move: M1; clear; lia.
have [M' EM] : exists M', M = (p * M')%CZ.
  exists (p ^ (Z.pred (2 ^ Z.of_nat k)))%CZ. rewrite /M -{1}(Z.succ_pred (2 ^ Z.of_nat k)) Z.pow_succ_r //. move: K0. clear. lia.
have pM x : (M | x)%CZ -> (p | x)%CZ by move=> [y ->]; exists (y * M')%CZ; rewrite EM; clear; lia.
have cM P Q : cgz M P Q -> cgz p P Q by rewrite EM; exact: cgz_weak.
have tr'n : tr' <> HLeaf by move=> X; apply: trn; apply/Ql.
have DM : ~ (M | cf)%CZ by move=> /pM.
have [e [x [l [rest [E1 [D1 B1] [Nx Rx] Fr]]]]] := leaves_lead M1 Nf (fun X => False_ind _ (tr'n X)) Il DM.
have EL : leaves tr' = ((e, x) :: l) :: rest by rewrite -E1; case: (tr') tr'n.
have G : Z.gcd x M = 1%CZ.
  apply/Znumtheory.Zgcd_1_rel_prime. apply: Zpow_facts.rel_prime_Zpower_r; first by move: K0; clear; lia.
  apply: Znumtheory.rel_prime_sym. apply: Znumtheory.prime_rel_prime => // X. apply: Hlc.
  have -> : (cf = x - (x - cf))%CZ by clear; lia. apply: Z.divide_sub_r => //. exact: pM.
have [i [l' [E2 Ml' C2 D2]]] := first_ok rest M1 Nx B1 Rx G.
have D3 : (M | cf * i - 1)%CZ.
  have -> : (cf * i - 1 = (x * i - 1) - (x - cf) * i)%CZ by clear; lia. apply: Z.divide_sub_r => //. exact: Z.divide_mul_l.
have ML : List.Forall (mleaf M) (l' :: rest) by constructor.
have FL : List.Forall (fun l => [/\ znormal l, monic_poly l & in_range M l]) (l' :: rest).
  apply: List.Forall_impl ML => y [Ny Ry [ey [ry Ey]]]. split=> //; first by rewrite Ey.
  apply/List.Forall_forall => -[ez cz] Hz. rewrite /= -(HenselBase.T_in Ny Hz). exact: Ry.
exists (l' :: rest), k. split; [|split; [exact: Tl|split; [|split; [exact: FL|]]]].
- exists (Nat.max N n) => fuel Hf. have [F1 F2] : (N <= fuel)%coq_nat /\ (n <= fuel)%coq_nat by move: Hf; clear; lia.
  have El' : lift_loop invert fuel target ((ef, cf) :: f) tr p = Ok (tr', M).
    have -> : fuel = (n + (fuel - n))%N by rewrite subnKC //; apply/leP. exact: lift_loop_mono.
  rewrite /hensel_lift. change (snd (ef, cf)) with cf. rewrite EB (Etr _ F1) [Prelude.obind (Ok _) _]/= El' [Prelude.obind (Ok _) _]/= EL E2. by [].
- apply/factors_cgz => //; first by apply: List.Forall_impl ML => y [].
  have CL := leaves_prod Il. rewrite E1 in CL. apply: cgz_trans CL _. apply: cgz_sym.
  change (prodT (l' :: rest)) with (TZ l' * prodT rest). change (prodT (((e, x) :: l) :: rest)) with (TZ ((e, x) :: l) * prodT rest).
  apply: (@cgz_trans M (cf *: (i *: (TZ ((e, x) :: l) * prodT rest)))); last exact: cgz_one.
  apply: cgz_scaler. rewrite scalerAl. apply: cgz_mul => //. exact: cgz_refl.
- rewrite Ltr E1 in Ll. inversion Ll as [|? ? ? ? C3 Lt]; subst.
  have FIN a b : mleaf M a -> (pnormal Hp b /\ lmonic Hp b) -> cgz p (TZ (to_zz p b)) (TZ a) -> udeg a = udeg b /\ forall n, (0 <= n)%CZ -> (p | xcoef (graw usm a) n - xcoef (graw usm (residues b)) n)%CZ.
    move=> [Na Ra Ma] [Nb' Mb] C. have Nz : unz (to_zz p b) by exact: (zz_norm Pr Nb'). split.
    - rewrite (monic_deg p1 Na Nz Ma (zz_monic Mb) (cgz_sym C)). by case: (b).
    - move=> j Hj. have := cgz_coef (Z.to_nat j) (cgz_sym C). rewrite !TZ_xcoef // Z2Nat.id //.
  constructor.
  + apply: FIN => //; first exact: List.Forall_inv HLM.
    apply: cgz_sym. apply: cgz_trans (cM _ _ C2) _. apply: (@cgz_trans p (i *: (cf *: TZ (to_zz p f0)))).
    * apply: cgz_scaler. apply: cgz_trans (cgz_sym C3) _. apply: (mp_cgz Hp Pr). rewrite mp_zz Tb Ec /mp map_polyZ. have := mp_zz f0. by rewrite /mp => ->.
    * apply: cgz_one. rewrite Z.mul_comm. exact: pM.
  + move: Lt Fr (List.Forall_inv_tail HLM) FIN. clear. elim: ft rest => [|b ft IH] rest Lt Fr H FIN; inversion Lt; subst; constructor.
    * apply: FIN => //; [exact: List.Forall_inv Fr|exact: List.Forall_inv H].
    * apply: IH => //; [exact: List.Forall_inv_tail Fr|exact: List.Forall_inv_tail H].
Qed.
End Main.
(** ** Example: f = 2x^3 + 14x^2 + 13x - 9 = 2 (x+1) (x+2) (x+4) modulo 5, lifted to the modulus 5^4; f is not
    (x+1)(x+2)(2x+3) over Z. *)
Definition ex_inv (a m : Z) : option Z := List.find (fun r => (a * r) mod m =? 1)%CZ (List.map Z.of_nat (List.seq 0 (Z.to_nat m))).
Lemma ex_inv_ok : invert_documented ex_inv.
Proof.
move=> a m m1 G. have RP : Znumtheory.rel_prime a m by apply/Znumtheory.Zgcd_1_rel_prime.
have [u v E] := Znumtheory.rel_prime_bezout _ _ RP.
rewrite /ex_inv. case FE : (List.find _ _) => [r|].
- exists r. split=> //. have [H1 H2] := List.find_some _ _ FE. split; last by apply/Z.eqb_eq.
  move: H1 => /List.in_map_iff[k [<- /List.in_seq]]. move: m1. clear. lia.
- exfalso. have m0 : (0 < m)%CZ by move: m1; clear; lia. have B := Z.mod_pos_bound u m m0.
  have H : List.In (u mod m)%CZ (List.map Z.of_nat (List.seq 0 (Z.to_nat m))).
    apply/List.in_map_iff. exists (Z.to_nat (u mod m)). split; first by rewrite Z2Nat.id //; case: B.
    apply/List.in_seq. move: B m1. set w := (u mod m)%CZ. clear. lia.
  have := List.find_none _ _ FE _ H. move/Z.eqb_neq. apply. rewrite Z.mul_mod_idemp_r; last by move: m0; clear; lia.
  have -> : (a * u = 1 + (- v) * m)%CZ by move: E; clear; lia. rewrite Z.mod_add; last by move: m0; clear; lia. apply: Z.mod_small. move: m1; clear; lia.
Qed.
Definition m5 : modulus 5. Proof. split; [discriminate|reflexivity]. Defined.
Lemma p5 : Znumtheory.prime 5. Proof. apply: (Znumtheory.prime_intro 5) => // n Hn; apply/Znumtheory.Zgcd_1_rel_prime. have : (n = 1 \/ n = 2 \/ n = 3 \/ n = 4)%CZ by move: Hn; clear; lia. by move=> [->|[->|[->|->]]]. Qed.
Definition ex_lin (a : Z) : list (Z * zpc 5) := [:: (1, zpc_of 5 m5 1); (0, zpc_of 5 m5 a)]%CZ.
Definition ex_factors := [:: ex_lin 1; ex_lin 2; ex_lin 4]%CZ.
Definition ex_f : list (Z * Z) := [:: (3, 2); (2, 14); (1, 13); (0, -9)]%CZ.
Lemma ex_lin_ok a : (0 < a < 5)%CZ -> pnormal m5 (ex_lin a) /\ monic_poly (residues (ex_lin a)).
Proof.
move=> Ha. have V x : (0 < x < 5)%CZ -> zpc_of 5 m5 x <> c0 (Zpc 5 m5).
  move=> Hx E. have := congr1 (fun t => proj1_sig t) E. change (c0 (Zpc 5 m5)) with (zpc_of 5 m5 0). rewrite !v_of Z.mod_0_l // Z.mod_small; move: Hx; clear; lia.
split=> //. apply: FactorZpBase.n_cons => //; first by move=> t [<-|//].
apply: FactorZpBase.n_cons => //; [exact: V|exact: (FactorZpBase.n_nil m5)].
Qed.
Lemma ex_lin_coprime a b : psi 5 a != psi 5 b -> (0 < a < 5)%CZ -> (0 < b < 5)%CZ -> coprime_mod m5 (ex_lin a) (ex_lin b).
Proof.
move=> D Ha Hb d Nd D1 D2. have D1' := dvd_T p5 D1. have D2' := dvd_T p5 D2. rewrite (FactorZpBase.T_deg p5 Nd).
have TE x : FactorZpBase.T (ex_lin x) = (phi (zpc_of 5 m5 1))%:A * 'X + (psi 5 x)%:P.
  rewrite /ex_lin !FactorZpBase.T_cons FactorZpBase.T_nil addr0 expr0 expr1 alg_polyC (phi_of m5 p5 x). by rewrite -mul_polyC alg_polyC.
have := dvdp_sub D1' D2'. change (toF (graw usm (ex_lin a))) with (FactorZpBase.T (ex_lin a)). change (toF (graw usm (ex_lin b))) with (FactorZpBase.T (ex_lin b)).
rewrite !TE opprD addrACA subrr add0r -polyCB => D3. change (toF (graw usm d)) with (FactorZpBase.T d) in D3.
have C0 : psi 5 a - psi 5 b != 0 by rewrite subr_eq0.
have := dvdp_leq _ D3. rewrite polyC_eq0 => /(_ C0). rewrite size_polyC C0. by case: (size _) => [|[|k]].
Qed.
Ltac nrm := first [exact: HenselBase.n_nil | apply: HenselBase.n_cons; [by []|by []|intros ?t; simpl; intuition (subst; simpl; lia)|nrm]].
Lemma ex_product : factors_mod 5 ex_f (lead ex_f) (map (@residues 5) ex_factors).
Proof.
have N x : (0 < x < 5)%CZ -> unz (residues (ex_lin x)) by move=> Hx; have [H _] := ex_lin_ok Hx; exact: (zz_norm p5 H).
have H1 : (0 < 1 < 5)%CZ by []. have H2 : (0 < 2 < 5)%CZ by []. have H4 : (0 < 4 < 5)%CZ by [].
have Nf : unz ex_f by nrm.
apply/factors_cgz => //; first by repeat (constructor; first exact: N).
have [r1 [E1 N1 T1]] := hmul_ok (N _ H2) (N _ H4). have [r2 [E2 N2 T2]] := hmul_ok (N _ H1) N1.
have -> : prodT (map (@residues 5) ex_factors) = TZ r2.
  change (prodT (map (@residues 5) ex_factors)) with (TZ (residues (ex_lin 1)) * (TZ (residues (ex_lin 2)) * (TZ (residues (ex_lin 4)) * 1))). by rewrite mulr1 -T1 -T2.
have {}E1 : r1 = [:: (2, 1); (1, 6); (0, 8)]%CZ by move: E1; vm_compute => -[].
rewrite E1 in E2. have {}E2 : r2 = [:: (3, 1); (2, 7); (1, 14); (0, 8)]%CZ by move: E2; vm_compute => -[].
rewrite E2 in N2 *. change (lead ex_f) with 2%CZ. have t1 : (2 <> 0)%CZ by []. have [N3 T3] := mul_coeff_ok' t1 N2. have [N4 T4] := hsub_ok Nf N3.
have Ne : unz [:: (1, -3); (0, -5)]%CZ.
  by nrm.
have t2 : (5 <> 0)%CZ by []. have [N5 T5] := mul_coeff_ok' t2 Ne.
have EQ : hsub ex_f (mul_coeff 2 [:: (3, 1); (2, 7); (1, 14); (0, 8)]%CZ) = mul_coeff 5 [:: (1, -3); (0, -5)]%CZ by vm_compute.
rewrite EQ T5 T3 in T4. exists (TZ [:: (1, -3); (0, -5)]%CZ). by rewrite /Padd /Pmul T4 mul_polyC addrC subrK.
Qed.
(** the hypotheses of the theorem hold; the lifted factors *)
Theorem C52_example_hypotheses : znormal ex_f /\ ~ (5 | lead ex_f)%CZ /\ List.Forall (fun h => pnormal m5 h /\ monic_poly (residues h)) ex_factors /\
  List.ForallOrdPairs (coprime_mod m5) ex_factors /\ factors_mod 5 ex_f (lead ex_f) (map (@residues 5) ex_factors) /\ invert_documented ex_inv.
Proof.
split; [|split; [|split; [|split; [|split; [exact: ex_product|exact: ex_inv_ok]]]]].
- by nrm.
- move=> [k E]. change (lead ex_f) with 2%CZ in E. move: E. clear. lia.
- by repeat (constructor; first exact: ex_lin_ok).
- by repeat constructor; apply: ex_lin_coprime.
Qed.
Theorem C52_example : hensel_lift ex_inv 5 m5 id 20 ex_f ex_factors 600 = Ok ([:: [:: (1, 1); (0, 191)]; [:: (1, 1); (0, 282)]; [:: (1, 1); (0, 159)]], 625)%CZ.
Proof. by vm_compute. Qed.
