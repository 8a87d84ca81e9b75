(** * Building the factor tree modulo p. *)
From Coq Require Znumtheory.
From Verif Require Import Prelude Coef Spec SpecProofs SpecOps SpecOpsProofs GcdDom GcdPoly GcdMath GcdProofs OrderSpec PairVec PairVecProofs MonoStruct MonoStructProofs Heap Poly PolyMulProofs Div PolyDivProofs
  PolyOps PolyOpsProofs ConvertProofs Zp NumSpec ZpProofs DenseSparse UGcd ExtGcd ExtGcdProofs Props_ExtGcd FactorZp FzpMath FactorZpBase Hensel HenselMath HenselBase HenselDiv HenselStep HenselTree.
From mathcomp Require Import all_ssreflect all_algebra all_field ssrZ.
Import GRing.Theory.
Set Implicit Arguments.
Unset Strict Implicit.
Local Open Scope ring_scope.
Delimit Scope Z_scope with CZ.
Notation PZ := {poly Z}.
Notation unz := (normal uok (m_gt uniS) Zc).
Notation TZ := HenselBase.T.
Lemma reduced_of m (l : upz) : (0 < m)%CZ -> unz l -> (forall t, List.In t l -> (0 <= snd t < m)%CZ) -> reduced m l.
Proof.
move=> m0. elim: l => [|[e c] l IH] N H i; first by rewrite HenselBase.T_nil coef0; change (0 <= 0 < m)%CZ; move: m0; clear; lia.
rewrite HenselBase.T_cons coefD coefZ coefXn. case: eqP => E.
- rewrite mulr1 HenselBase.T_high ?addr0; [exact: (H (e, c) (or_introl erefl))|exact: HenselBase.n_tl N|].
  move=> t Ht. have := HenselBase.n_head N Ht. rewrite E. clear. lia.
- rewrite mulr0 add0r. apply: IH; first exact: HenselBase.n_tl N. by move=> t Ht; apply: H; right.
Qed.
Section B.
Context (p : Z) (Hp : modulus p) (Pr : Znumtheory.prime p).
Notation K := (Zpc p Hp).
Notation zup := (list (Z * zpc p)).
Notation unorm := (normal uok (m_gt uniS) K).
Notation F := 'F_(FactorZpBase.q p).
Notation TF := (@FactorZpBase.T p).
Notation zz := (@to_zz p).
Definition psiR := RMorphism (@psi_is_rmorphism p).
Lemma psi_eq a b : psi p a = psi p b -> (p | a - b)%CZ.
Proof.
move=> E. have p0 : (p <> 0)%CZ by case: Hp; clear; lia. apply: (proj1 (Z.mod_divide _ _ p0)).
apply: (psi_0 Hp Pr); first by apply: Z.mod_pos_bound; case: Hp; clear; lia.
by rewrite psi_mod // psi_sub E subrr.
Qed.
Lemma psi_eq' a b : (p | a - b)%CZ -> psi p a = psi p b.
Proof. move=> [k E]. apply/eqP. rewrite -subr_eq0 -psi_sub E psi_mul. have -> : psi p p = 0 by exact: psi_p. by rewrite mulr0. Qed.
Definition mp (P : PZ) : {poly F} := map_poly psiR P.
Lemma mp_cgz (P Q : PZ) : mp P = mp Q -> cgz p P Q.
Proof.
move=> E. apply: coef_cgz; first by case: Hp; clear; lia. move=> i. apply: psi_eq.
by have := congr1 (fun x : {poly F} => x`_i) E; rewrite !coef_map.
Qed.
Lemma cgz_mp (P Q : PZ) : cgz p P Q -> mp P = mp Q.
Proof. move=> C. apply/polyP => i. rewrite !coef_map. apply: psi_eq'. exact: cgz_coef. Qed.
Lemma mp_mul P Q : mp (P * Q) = mp P * mp Q. Proof. exact: rmorphM. Qed.
Lemma mp_add P Q : mp (P + Q) = mp P + mp Q. Proof. exact: rmorphD. Qed.
Lemma mp_1 : mp 1 = 1. Proof. exact: rmorph1. Qed.
Lemma mp_zz (l : zup) : mp (TZ (zz l)) = TF l.
Proof.
elim: l => [|[e c] l IH]; first by rewrite HenselBase.T_nil /mp rmorph0.
by rewrite [zz _]/= HenselBase.T_cons FactorZpBase.T_cons mp_add IH /mp map_polyZ map_polyXn.
Qed.
Lemma zz_norm (l : zup) : unorm l -> unz (zz l).
Proof.
elim: l => [|[e c] l IH] N; first exact: HenselBase.n_nil.
have [/= He Hc] := FactorZpBase.n_in N (or_introl erefl). apply: HenselBase.n_cons => //.
- move=> E. apply: Hc. apply: (phi_eq0 Hp Pr). rewrite /phi E. exact: (rmorph0 psiR).
- move=> t /List.in_map_iff[u [<- Hu]]. have [_ H] := FactorZpBase.n_head N Hu. exact: H.
- exact: IH (FactorZpBase.n_tl N).
Qed.
Lemma zz_reduced (l : zup) : unorm l -> reduced p (zz l).
Proof.
move=> N. apply: reduced_of; [by case: Hp; clear; lia|exact: zz_norm|]. move=> t /List.in_map_iff[u [<- _]] /=.
exact: (zpc_res p).
Qed.
Definition lmonic (l : zup) : Prop := exists e r, l = (e, c1 K) :: r.
Lemma zz_monic (l : zup) : lmonic l -> monicz (zz l).
Proof.
move=> [e [r ->]]. exists e, (zz r). have E : proj1_sig (zpc_of p Hp 1) = 1%CZ by rewrite v_of; apply: Z.mod_small; case: Hp; clear; lia.
change (zz ((e, c1 K) :: r)) with ((e, proj1_sig (zpc_of p Hp 1)) :: zz r). by rewrite E.
Qed.
Lemma lmonic_T (l : zup) : unorm l -> lmonic l -> TF l \is monic.
Proof. move=> N [e [r E]]. rewrite E in N *. by rewrite monicE (FactorZpBase.T_lead Pr N) phi_1. Qed.
Lemma T_lmonic (l : zup) : unorm l -> TF l \is monic -> lmonic l.
Proof.
case: l => [|[e c] l] N M; first by move: M; rewrite FactorZpBase.T_nil monicE lead_coef0 eq_sym oner_eq0.
exists e, l. suff -> : c = c1 K by []. apply: (phi_inj Hp Pr). rewrite (phi_1 Hp Pr). by move: M; rewrite monicE (FactorZpBase.T_lead Pr N) => /eqP.
Qed.
(** products *)
Definition pF (L : list zup) : {poly F} := foldr (fun a b => TF a * b) 1 L.
Lemma pF_zz L : mp (prodT (map zz L)) = pF L.
Proof. elim: L => [|a L IH]; first by rewrite /= mp_1. by rewrite /= mp_mul mp_zz IH. Qed.
Lemma pF_cat L1 L2 : pF (L1 ++ L2) = pF L1 * pF L2.
Proof. elim: L1 => [|a L IH] /=; first by rewrite mul1r. by rewrite IH mulrA. Qed.
Lemma zprod_from_ok L : List.Forall unorm L -> forall a, unorm a -> exists r, [/\ zprod_from p Hp a L = Ok r, unorm r & TF r = TF a * pF L].
Proof.
elim: L => [|b L IH] H a Na; first by exists a; rewrite mulr1.
have [c [E N R]] := zmul_ok Pr Na (List.Forall_inv H). have [r [E2 N2 R2]] := IH (List.Forall_inv_tail H) c N.
exists r. split=> //; first by rewrite /= E. by rewrite R2 R /= mulrA.
Qed.
Lemma zprod_ok L : L <> [::] -> List.Forall unorm L -> exists r, [/\ zprod p Hp L = Ok r, unorm r & TF r = pF L].
Proof.
case: L => [//|a L] _ H. exact: zprod_from_ok (List.Forall_inv_tail H) _ (List.Forall_inv H).
Qed.
Definition copr (a b : zup) : Prop := coprimep (TF a) (TF b).
Lemma fop_app (R : zup -> zup -> Prop) l1 l2 : List.ForallOrdPairs R (l1 ++ l2) ->
  [/\ List.ForallOrdPairs R l1, List.ForallOrdPairs R l2 & forall a b, List.In a l1 -> List.In b l2 -> R a b].
Proof.
elim: l1 => [|x l1 IH] H; first by split=> //; constructor.
inversion H as [|? ? H1 H2]; subst. have [A B C] := IH H2. have [H1a H1b] := (List.Forall_app _ _ _).1 H1. split=> //; first by constructor.
move=> a b [<-|Ha] Hb; [exact: ((List.Forall_forall _ _).1 H1b)|exact: C].
Qed.
Lemma copr_prod1 (P : {poly F}) L : (forall b, List.In b L -> coprimep P (TF b)) -> coprimep P (pF L).
Proof.
elim: L => [|b L IH] H; first exact: coprimep1. rewrite /= coprimepMr. apply/andP. split; first exact: (H b (or_introl erefl)).
by apply: IH => c Hc; apply: H; right.
Qed.
Lemma copr_prod L1 L2 : (forall a b, List.In a L1 -> List.In b L2 -> copr a b) -> coprimep (pF L1) (pF L2).
Proof.
move=> H. rewrite coprimep_sym. apply: copr_prod1 => a Ha. rewrite coprimep_sym. apply: copr_prod1 => b Hb. exact: H.
Qed.
Lemma monic_prod L : List.Forall (fun a => TF a \is monic) L -> pF L \is monic.
Proof. elim: L => [|a L IH] H; first exact: monic1. rewrite /=. apply: rpredM; [exact: List.Forall_inv H|exact: IH (List.Forall_inv_tail H)]. Qed.
Lemma neq0_prod L : List.Forall (fun a => TF a != 0) L -> pF L != 0.
Proof. elim: L => [|a L IH] H; first exact: oner_neq0. by rewrite /= mulf_neq0 //; [exact: List.Forall_inv H|exact: IH (List.Forall_inv_tail H)]. Qed.
(** Bezout's identity modulo p *)
Lemma ext_ok srt (g h : zup) : unorm g -> unorm h -> TF g != 0 -> TF h != 0 -> coprimep (TF g) (TF h) ->
  exists r s t N, [/\ forall fuel, (N <= fuel)%coq_nat -> uzp_ext p Hp srt fuel g h = Ok (r, s, t), unorm s, unorm t & TF s * TF g + TF t * TF h = 1].
Proof.
move=> Ng Nh Zg Zh C.
have Gn : g <> [::] by move=> E; move: Zg; rewrite E eqxx. have Hn : h <> [::] by move=> E; move: Zh; rewrite E eqxx.
have [r [s [t [[N E] [Nr [Ns [Nt [[m [l Er]] [B [D1 [D2 _]]]]]]]]]]] := C28_ext_gcd_mod_p p Hp Pr srt g h Ng Nh Gn Hn.
exists r, s, t, N. split=> //.
have B' : TF r = TF s * TF g + TF t * TF h.
  have := toF_req Pr B. by rewrite toF_add // !toF_mul.
rewrite -B'. have D1' : TF r %| TF g := dvd_T Pr D1. have D2' : TF r %| TF h := dvd_T Pr D2.
have Mr : TF r \is monic by apply: lmonic_T => //; exists m, l.
have U : TF r %= 1.
  rewrite -size_poly_eq1 -[_ == _]negbK. have /coprimepP X := C. have := X _ D1' D2'. by rewrite -size_poly_eq1 => ->.
have := eqp_monic Mr (monic1 _). by rewrite U => /esym/eqP.
Qed.
Lemma Forall_cat (A : Type) (P : A -> Prop) (l1 l2 : list A) : List.Forall P (l1 ++ l2) -> List.Forall P l1 /\ List.Forall P l2.
Proof. exact: (List.Forall_app P l1 l2).1. Qed.
Section Tree.
Variable srt : zup -> zup.
Definition tree_pre (fs : list zup) : Prop :=
  [/\ List.Forall unorm fs, List.Forall (fun a => TF a != 0) fs, List.Forall (fun a => TF a \is monic) (List.tl fs) & List.ForallOrdPairs copr fs].
Lemma tl_app (A : Type) (l1 l2 : list A) : l1 <> [::] -> List.tl (l1 ++ l2) = List.tl l1 ++ l2. Proof. by case: l1. Qed.
Lemma tl_forall (A : Type) (P : A -> Prop) (l : list A) : List.Forall P l -> List.Forall P (List.tl l). Proof. by case: l => [//|a l] H; exact: List.Forall_inv_tail H. Qed.
Lemma tree_build_S n fuel fs : tree_build p Hp srt n.+1 fuel fs =
  Prelude.obind (zprod p Hp (List.firstn (Nat.div2 (length fs)) fs)) (fun g => Prelude.obind (zprod p Hp (List.skipn (Nat.div2 (length fs)) fs)) (fun h =>
  Prelude.obind (uzp_ext p Hp srt fuel g h) (fun x => let '(_, s, t) := x in
  Prelude.obind (if (2 <=? length (List.firstn (Nat.div2 (length fs)) fs))%coq_nat then tree_build p Hp srt n fuel (List.firstn (Nat.div2 (length fs)) fs) else Ok HLeaf) (fun l =>
  Prelude.obind (if (2 <=? length (List.skipn (Nat.div2 (length fs)) fs))%coq_nat then tree_build p Hp srt n fuel (List.skipn (Nat.div2 (length fs)) fs) else Ok HLeaf) (fun r =>
  Ok (HNode (zz g) (zz h) (zz s) (zz t) l r)))))).
Proof. by []. Qed.
Lemma tree_ok n : forall fs, (2 <= length fs)%coq_nat -> (length fs <= n)%coq_nat -> tree_pre fs ->
  exists N tr, [/\ forall fuel, (N <= fuel)%coq_nat -> tree_build p Hp srt n fuel fs = Ok tr, tr <> HLeaf,
    forall G, lvs tr G = map zz fs & forall G, cgz p (TZ G) (prodT (map zz fs)) -> tinv p G tr].
Proof.
elim: n => [|n IH] fs L2 Ln [A1 A2 A3 A4]; first by move: L2 Ln; clear; lia.
set mid := Nat.div2 (length fs). have D2 := Nat.div2_odd (length fs). rewrite -/mid in D2.
have Hmid : (1 <= mid)%coq_nat /\ (mid < length fs)%coq_nat.
  move: D2 L2. case: (Nat.odd _) => /=; clear; lia.
have EF : fs = List.firstn mid fs ++ List.skipn mid fs := esym (List.firstn_skipn mid fs).
set ls := List.firstn mid fs in EF. set rs := List.skipn mid fs in EF.
have Lls : length ls = mid by rewrite /ls List.firstn_length; move: Hmid; clear; lia.
have Lrs : length rs = (length fs - mid)%coq_nat by rewrite /rs List.skipn_length.
have lsn : ls <> [::] by move=> E; move: Lls Hmid; rewrite E /=; clear; lia.
have rsn : rs <> [::] by move=> E; move: Lrs Hmid; rewrite E /=; clear; lia.
have [A1l A1r] : List.Forall unorm ls /\ List.Forall unorm rs by apply: Forall_cat; rewrite -EF.
have [A2l A2r] : List.Forall (fun a => TF a != 0) ls /\ List.Forall (fun a => TF a != 0) rs by apply: Forall_cat; rewrite -EF.
have [A3l A3r] : List.Forall (fun a => TF a \is monic) (List.tl ls) /\ List.Forall (fun a => TF a \is monic) rs.
  apply: Forall_cat. by rewrite -tl_app // -EF.
have [A4l A4r A4lr] : [/\ List.ForallOrdPairs copr ls, List.ForallOrdPairs copr rs & forall a b, List.In a ls -> List.In b rs -> copr a b].
  apply: fop_app. by rewrite -EF.
have [g [Eg Ng Tg]] := zprod_ok lsn A1l. have [h [Eh Nh Th]] := zprod_ok rsn A1r.
have [r0 [s [t [N0 [E0 Ns Nt B0]]]]] : exists r s t N, [/\ forall fuel, (N <= fuel)%coq_nat -> uzp_ext p Hp srt fuel g h = Ok (r, s, t), unorm s, unorm t & TF s * TF g + TF t * TF h = 1].
  apply: ext_ok => //; rewrite ?Tg ?Th; [exact: neq0_prod|exact: neq0_prod|exact: copr_prod].
have SUB : forall q, q <> [::] -> (length q < length fs)%coq_nat -> tree_pre q ->
  exists N tr, [/\ forall fuel, (N <= fuel)%coq_nat -> (if (2 <=? length q)%coq_nat then tree_build p Hp srt n fuel q else Ok HLeaf) = Ok tr,
    forall G, TZ G = TZ G -> (length q = 1%N -> [:: G] = map zz q) -> lvs tr G = map zz q & forall G, cgz p (TZ G) (prodT (map zz q)) -> tinv p G tr].
  move=> q qn Lq Pq. case: (Nat.leb_spec 2 (length q)) => Hq.
  - have [|N [tr [X1 X2 X3 X4]]] := IH q Hq _ Pq; first by move: Ln Lq; clear; lia. exists N, tr. by split.
  - exists 0%N, HLeaf. split=> // G _ H. apply: H. case: q qn Hq {Lq Pq} => [//|a [|b q]] //= _. clear. lia.
have [||Nl [l [El Ll Il]]] := SUB ls lsn; first by move: Lls Hmid; clear; lia.
  by split.
have [||Nr [r [Er Lr Ir]]] := SUB rs rsn; first by move: Lrs Hmid; clear; lia.
  split=> //. exact: tl_forall.
have Pg : forall q z, zprod p Hp q = Ok z -> length q = 1%N -> [:: zz z] = map zz q.
  move=> [//|a [|//]] z /= [<-] //.
exists (Nat.max N0 (Nat.max Nl Nr)), (HNode (zz g) (zz h) (zz s) (zz t) l r). split=> //.
- move=> fuel Hf. have [Q1 [Q2 Q3]] : (N0 <= fuel)%coq_nat /\ (Nl <= fuel)%coq_nat /\ (Nr <= fuel)%coq_nat by move: Hf; clear; lia.
  rewrite tree_build_S -/mid -/ls -/rs Eg [Prelude.obind (Ok _) _]/= Eh [Prelude.obind (Ok _) _]/= (E0 _ Q1) [Prelude.obind (Ok _) _]/=.
  by rewrite (El _ Q2) [Prelude.obind (Ok _) _]/= (Er _ Q3).
- move=> G. rewrite lvs_node Ll //; last exact: Pg. rewrite Lr //; last exact: Pg. by rewrite -map_cat -EF.
- move=> G CG. split=> //.
  + by split; apply: zz_norm.
  + apply: zz_monic. apply: T_lmonic => //. rewrite Th. exact: monic_prod.
  + by split; apply: zz_reduced.
  + split.
    * apply: cgz_trans CG _. apply: mp_cgz. by rewrite pF_zz mp_mul !mp_zz Tg Th -pF_cat -EF.
    * apply: mp_cgz. by rewrite mp_add !mp_mul !mp_zz B0 mp_1.
  + split; [apply: Il|apply: Ir]; apply: mp_cgz; by rewrite pF_zz mp_zz.
Qed.
End Tree.
End B.
