(** * The recursion over the factor tree and the lifting loop. *)
From Verif Require Import Prelude Coef Spec SpecProofs SpecOps SpecOpsProofs GcdDom GcdPoly GcdMath GcdProofs OrderSpec PairVec PairVecProofs MonoStruct MonoStructProofs Heap Poly PolyMulProofs Div PolyDivProofs
  PolyOps PolyOpsProofs ConvertProofs Zp NumSpec ZpProofs DenseSparse UGcd ExtGcd FactorZp Hensel HenselMath HenselBase HenselDiv HenselStep.
From mathcomp Require Import all_ssreflect all_algebra all_field ssrZ.
Import GRing.Theory.
Set Implicit Arguments.
Unset Strict Implicit.
Local Open Scope ring_scope.
Delimit Scope Z_scope with CZ.
Notation PZ := {poly Z}.
Notation unz := (normal uok (m_gt uniS) Zc).
Lemma dvd_r (M a b : Z) : (M | a - b)%CZ -> b = 0%CZ -> (M | a)%CZ. Proof. by move=> H E; move: H; rewrite E Z.sub_0_r. Qed.
Lemma dvd_l (M a b : Z) : (M | a - b)%CZ -> a = 0%CZ -> (M | b)%CZ.
Proof. move=> H E; move: H; rewrite E. move=> [k X]. exists (- k)%CZ. move: X. clear. lia. Qed.
(** leading coefficients: if F ≡ G*H modulo M with H monic, G reduced and M not dividing lead F, lead G ≡ lead F *)
Lemma lead_lemma M (ef cf : Z) (f g : upz) eh (h : upz) : (1 < M)%CZ -> unz ((ef, cf) :: f) -> unz g -> unz ((eh, 1%CZ) :: h) -> reduced M g ->
  cgz M (T ((ef, cf) :: f)) (T g * T ((eh, 1%CZ) :: h)) -> ~ (M | cf)%CZ ->
  exists eg cg g', [/\ g = (eg, cg) :: g', (M | cg - cf)%CZ, (0 < cg < M)%CZ & ef = (eg + eh)%CZ].
Proof.
move=> M1 Nf Ng Nh R C D.
case: g Ng R C => [|[eg cg] g] Ng R C.
  case: D. have := cgz_coef (Z.to_nat ef) C. rewrite T_top // => X. apply: dvd_r X _. by rewrite T_nil mul0r coef0.
have [/= Hef Hcf] := n_in Nf (or_introl erefl). have [/= Heg Hcg] := n_in Ng (or_introl erefl). have [/= Heh _] := n_in Nh (or_introl erefl).
have Rc : (0 < cg < M)%CZ by have := R (Z.to_nat eg); rewrite T_top // => H; move: H Hcg; clear; lia.
set F := T ((ef, cf) :: f) in C. set G := T ((eg, cg) :: g) in C R. set H := T ((eh, 1%CZ) :: h) in C.
have SF : size F = (Z.to_nat ef).+1 by exact: T_size. have SG : size G = (Z.to_nat eg).+1 by exact: T_size. have SH : size H = (Z.to_nat eh).+1 by exact: T_size.
have MH : H \is monic by rewrite monicE T_lead.
have SGH : size (G * H) = (Z.to_nat eg + Z.to_nat eh).+1.
  rewrite size_Mmonic //; last by rewrite -size_poly_gt0 SG. by rewrite SG SH addSn addnS.
have LGH : (G * H)`_(Z.to_nat eg + Z.to_nat eh) = cg.
  have := lead_coef_Mmonic G MH. by rewrite lead_coefE SGH T_lead.
have Ncg : ~ (M | cg)%CZ by move=> /Z.divide_pos_le X; move: X Rc; clear; lia.
have EQ : Z.to_nat ef = (Z.to_nat eg + Z.to_nat eh)%N.
  apply/eqP. rewrite eqn_leq. apply/andP. split; rewrite leqNgt; apply/negP => L.
  - apply: D. have := cgz_coef (Z.to_nat ef) C. rewrite /F T_top // => X. apply: dvd_r X _. by rewrite nth_default ?SGH.
  - apply: Ncg. have := cgz_coef (Z.to_nat eg + Z.to_nat eh) C. rewrite LGH => X. apply: dvd_l X _. by rewrite nth_default ?SF.
exists eg, cg, g. split=> //.
- have := cgz_coef (Z.to_nat ef) C. rewrite /F T_top // EQ LGH => -[k E]. exists (- k)%CZ. have E' : (cf - cg = k * M)%CZ by exact: E. move: E'. clear. lia.
- move: EQ Hef Heg Heh. rewrite -plusE. clear. lia.
Qed.
(** ** Trees *)
Fixpoint tinv (m : Z) (F : upz) (tr : htree) : Prop :=
  match tr with
  | HLeaf => True
  | HNode g h s t l r =>
      [/\ [/\ unz g, unz h, unz s & unz t], monicz h, reduced m g /\ reduced m h,
          cgz m (T F) (T g * T h) /\ cgz m (T s * T g + T t * T h) 1 & tinv m g l /\ tinv m h r]
  end.
Definition lvs (tr : htree) (F : upz) : list upz := match tr with HLeaf => [:: F] | _ => leaves tr end.
Lemma lvs_node g h s t l r F : lvs (HNode g h s t l r) F = lvs l g ++ lvs r h.
Proof. by []. Qed.
Lemma tinv_target m F F' tr : cgz m (T F) (T F') -> tinv m F tr -> tinv m F' tr.
Proof.
case: tr => [//|g h s t l r] C [A B D [E1 E2] I]. split=> //. split=> //. exact: (cgz_trans (cgz_sym C) E1).
Qed.
Section Inv.
Variable invert : Z -> Z -> option Z.
Hypothesis Hinv : inv_doc invert.
Local Opaque hensel_step.
Lemma lift_rec_ok m : (1 < m)%CZ -> forall tr F F', unz F' -> cgz m (T F) (T F') -> tinv m F tr ->
  exists tr', [/\ lift_rec invert tr F' m = Ok tr', tinv (m * m) F' tr', List.Forall2 (fun a b => cgz m (T a) (T b)) (lvs tr F) (lvs tr' F') & (tr = HLeaf <-> tr' = HLeaf)].
Proof.
move=> m1. elim=> [|g h s t l IHl r IHr] F F' NF C.
- move=> _. exists HLeaf. split=> //. constructor; [exact: C|constructor].
- move=> [[Ng Nh Ns Nt] Mh [Rg Rh] [E1 E2] [Il Ir]].
  have [g' [h' [s' [t' [E [Ng' Nh' Ns' Nt' Mh'] [Rg' Rh' Cg Ch] P1 P2]]]]] := step_ok Hinv m1 Ng Nh Ns Nt NF Mh (cgz_trans (cgz_sym C) E1) E2.
  have [l' [El Il' Ll _]] := IHl g g' Ng' (cgz_sym Cg) Il.
  have [r' [Er Ir' Lr _]] := IHr h h' Nh' (cgz_sym Ch) Ir.
  exists (HNode g' h' s' t' l' r'). split=> //.
  + by rewrite /= E /= El /= Er.
  + rewrite !lvs_node. exact: List.Forall2_app.
Qed.
Lemma reduced_weak m n l : (m <= n)%CZ -> reduced m l -> reduced n l.
Proof. move=> L R i. have := R i. clear -L. lia. Qed.
(** the loop *)
Lemma lift_loop_ok F target : unz F -> forall n m tr, (1 < m)%CZ -> tinv m F tr -> (target < m * 2 ^ Z.of_nat n)%CZ ->
  exists tr' k, [/\ lift_loop invert n target F tr m = Ok (tr', m ^ (2 ^ Z.of_nat k))%CZ, (target < m ^ (2 ^ Z.of_nat k))%CZ, tinv (m ^ (2 ^ Z.of_nat k)) F tr',
    List.Forall2 (fun a b => cgz m (T a) (T b)) (lvs tr F) (lvs tr' F) & (tr = HLeaf <-> tr' = HLeaf)].
Proof.
move=> NF. elim=> [|n IH] m tr m1 I L.
- exists tr, 0%N. rewrite /lift_loop. case: Z.leb_spec => X; first by move: L X; rewrite /= ; clear; lia.
  rewrite Z.pow_0_r Z.pow_1_r. split=> //. elim: (lvs tr F) => [|a q IHq]; constructor=> //. exact: cgz_refl.
- rewrite [lift_loop _ _ _ _ _ _]/=. case: Z.leb_spec => X; last first.
    exists tr, 0%N. rewrite Z.pow_0_r Z.pow_1_r. split=> //. elim: (lvs tr F) => [|a q IHq]; constructor=> //. exact: cgz_refl.
  have [tr1 [E1 I1 L1 Q1]] := lift_rec_ok m1 NF (cgz_refl _ _) I. rewrite E1 /=.
  have [||tr' [k [E2 T2 I2 L2 Q2]]] := IH (m * m)%CZ tr1 _ I1.
  + move: m1. clear. nia.
  + move: L. rewrite Nat2Z.inj_succ Z.pow_succ_r; last exact: Nat2Z.is_nonneg. have := Z.pow_pos_nonneg 2 (Z.of_nat n). have : (2 <= m)%CZ by move: m1; clear; lia.
    set w := (2 ^ Z.of_nat n)%CZ. move: (Nat2Z.is_nonneg n). clear. nia.
  have PE : ((m * m) ^ (2 ^ Z.of_nat k) = m ^ (2 ^ Z.of_nat (S k)))%CZ.
    rewrite Nat2Z.inj_succ Z.pow_succ_r; last exact: Nat2Z.is_nonneg. rewrite Z.pow_mul_r //; last by apply: Z.pow_nonneg. by rewrite Z.pow_2_r.
  exists tr', (S k). rewrite -PE. split=> //; last by rewrite Q1.
  elim: (lvs tr F) (lvs tr1 F) (lvs tr' F) L1 L2 => [|a q IHq] q1 q2 H1 H2; inversion H1; subst; inversion H2; subst; constructor.
  + apply: cgz_trans; first by eassumption. apply: cgz_weak. eassumption.
  + apply: IHq; eassumption.
Qed.
End Inv.
(** ** The leaves of a tree *)
Definition prodT (L : list upz) : PZ := foldr (fun a b => T a * b) 1 L.
Lemma prodT_cat L1 L2 : prodT (L1 ++ L2) = prodT L1 * prodT L2.
Proof. elim: L1 => [|a L IH] /=; first by rewrite mul1r. by rewrite IH mulrA. Qed.
Lemma leaves_prod m tr F : tinv m F tr -> cgz m (T F) (prodT (lvs tr F)).
Proof.
elim: tr F => [|g h s t l IHl r IHr] F.
- move=> _. rewrite /= mulr1. exact: cgz_refl.
- move=> [_ _ _ [E1 _] [Il Ir]]. rewrite lvs_node prodT_cat. apply: cgz_trans E1 _. by apply: cgz_mul; [apply: IHl|apply: IHr].
Qed.
Definition mleaf (m : Z) (l : upz) : Prop := [/\ unz l, reduced m l & monicz l].
Lemma leaves_lead m tr ef cf f : (1 < m)%CZ -> unz ((ef, cf) :: f) -> (tr = HLeaf -> (0 < cf < m)%CZ /\ reduced m ((ef, cf) :: f)) -> tinv m ((ef, cf) :: f) tr -> ~ (m | cf)%CZ ->
  exists e c l rest, [/\ lvs tr ((ef, cf) :: f) = ((e, c) :: l) :: rest, (m | c - cf)%CZ /\ (0 < c < m)%CZ, unz ((e, c) :: l) /\ reduced m ((e, c) :: l) & List.Forall (mleaf m) rest].
Proof.
move=> m1. elim: tr ef cf f => [|g h s t l IHl r IHr] ef cf f NF.
- move=> H _ _. have [H1 H2] := H erefl. exists ef, cf, f, [::]. split=> //. split=> //. rewrite Z.sub_diag. exact: Z.divide_0_r.
- move=> _ [[Ng Nh Ns Nt] [eh [lh Mh]] [Rg Rh] [E1 _] [Il Ir]] D. rewrite lvs_node.
  rewrite Mh in Nh Rh E1 Ir *.
  have [eg [cg [g' [Eg Dg Bg _]]]] := lead_lemma m1 NF Ng Nh Rg E1 D. rewrite Eg in Ng Rg E1 Il *.
  have Dcg : ~ (m | cg)%CZ by move=> /Z.divide_pos_le X; move: X Bg; clear; lia.
  have [|e1 [c1 [l1 [rest1 [L1 [D1 B1] N1 R1]]]]] := IHl eg cg g' Ng _ Il Dcg; first by [].
  have D1' : ~ (m | 1)%CZ by move=> /Z.divide_pos_le X; move: X m1; clear; lia.
  have [|e2 [c2 [l2 [rest2 [L2 [D2 B2] [N2 N2'] R2]]]]] := IHr eh 1%CZ lh Nh _ Ir D1'; first by move=> _; split=> //; move: m1; clear; lia.
  have Ec2 : c2 = 1%CZ by apply: (small_eq D2); move: B2 m1; clear; lia.
  exists e1, c1, l1, (rest1 ++ ((e2, c2) :: l2) :: rest2). rewrite L1 L2. split=> //.
  + split=> //. have -> : (c1 - cf = (c1 - cg) + (cg - cf))%CZ by clear; lia. exact: Z.divide_add_r.
  + apply/List.Forall_app. split=> //. constructor=> //. split=> //. exists e2, l2. by rewrite Ec2.
Qed.
