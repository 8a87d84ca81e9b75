(** * C50, C51: the square-free and the distinct-degree stages of the factorization modulo a prime; the factorization is
    unique (C49_deterministic). *)
From Coq Require Znumtheory Permutation Sorting.Sorted.
From Verif Require Import Prelude Coef Spec SpecProofs SpecOps SpecOpsProofs GcdDom GcdPoly GcdMath GcdProofs OrderSpec PairVec PairVecProofs MonoStruct MonoStructProofs Heap Poly PolyMulProofs Div PolyDivProofs
  PolyOps ConvertProofs Zp NumSpec ZpProofs GcdHom UGcd UGcdBase UGcdMod FactorZp.
From mathcomp Require Import all_ssreflect all_algebra all_field ssrZ.
From Verif Require Import FzpMath FactorZpBase Props_FactorZp.
Import GRing.Theory.
Set Implicit Arguments.
Unset Strict Implicit.
Local Open Scope ring_scope.
Delimit Scope Z_scope with CZ.

(** ** Specification *)
Section Spec.
Context (p : Z) (Hp : modulus p).
Notation zup := (list (Z * zpc p)).
(** no square of a polynomial of positive degree divides f *)
Definition squarefree_mod (f : zup) : Prop :=
  forall A B, unormal Hp A -> unormal Hp B -> req (Zpc p Hp) (graw usm f) (rmul (Zpc p Hp) (graw usm A) (rmul (Zpc p Hp) (graw usm A) (graw usm B))) -> udeg A = 0%CZ.
(** h divides f *)
Definition divides_mod (h f : zup) : Prop :=
  exists B, unormal Hp B /\ req (Zpc p Hp) (graw usm f) (rmul (Zpc p Hp) (graw usm h) (graw usm B)).
(** the product of the polynomials of the list, without the numbers they are paired with *)
Fixpoint plain_product (l : list (zup * Z)) : rpoly (zpc p) :=
  match l with [::] => rconst (c1 (Zpc p Hp)) | (h, _) :: l => rmul (Zpc p Hp) (graw usm h) (plain_product l) end.
(** the second components increase strictly *)
Definition smaller (a b : zup * Z) : Prop := (snd a < snd b)%CZ.
End Spec.

Lemma h_udeg0 (s : nat) : (0 < s)%N -> Z.of_nat s.-1 = 0%CZ -> s = 1%N.
Proof. case: s => [|[|s]] //= _; lia. Qed.

(** ** Square-free polynomials over a finite field are separable *)
Section Sep.
Variable F : finFieldType.
Let q := #|F|.
Hypothesis charp : q \in [char F].
Lemma irr_div (f : {poly F}) : (1 < size f)%N -> exists2 u : {poly F}, irreducible_poly u & u %| f.
Proof.
move=> Sf. pose P k := [exists v : 'rV[F]_k.+1, [&& (1 < size (rVpoly v))%N, size (rVpoly v) == k.+1 & rVpoly v %| f]].
have inP (v : {poly F}) : (1 < size v)%N -> v %| f -> P (size v).-1.
  move=> Sv Dv. have v0 : (0 < size v)%N := ltnW Sv. apply/existsP. exists (poly_rV v). rewrite poly_rV_K; last by rewrite prednK.
  by rewrite Sv Dv prednK // eqxx.
have exP : exists k, P k by exists (size f).-1; apply: inP.
case: (ex_minnP exP) => k /existsP[v0 /and3P[S1 /eqP S2 D]] Min. exists (rVpoly v0) => //. split=> // w Sw Dw.
have u0 : rVpoly v0 != 0 by rewrite -size_poly_gt0 ltnW.
have w0 : w != 0 by apply: contraTneq Dw => ->; rewrite dvd0p.
have Sw1 : (1 < size w)%N by rewrite ltn_neqAle eq_sym Sw size_poly_gt0.
have Le := dvdp_leq u0 Dw. have := Min _ (inP w Sw1 (dvdp_trans Dw D)) => Ge.
rewrite -(dvdp_size_eqp Dw) eqn_leq Le S2. by rewrite -ltnS prednK in Ge; rewrite // ltnW.
Qed.
Lemma nosq_sep (f : {poly F}) : (forall u v : {poly F}, f = u * (u * v) -> (size u <= 1)%N) -> f != 0 -> separable_poly f.
Proof.
move=> H f0. rewrite /separable_poly /coprimep. case: (eqVneq (size (gcdp f f^`())) 1%N) => // S1.
have S : (1 < size (gcdp f f^`()))%N by rewrite ltn_neqAle eq_sym S1 size_poly_gt0 gcdp_eq0 (negbTE f0).
have [u Iu Du] := irr_div S. have [Su X] := Iu. exfalso.
  have Df : u %| f := dvdp_trans Du (dvdp_gcdl _ _). have Dd : u %| f^`() := dvdp_trans Du (dvdp_gcdr _ _).
  have Ef : f = (f %/ u) * u by rewrite divpK.
  have Dm : u %| (f %/ u) * u^`().
    move: Dd. by rewrite {1}Ef derivM dvdp_addr // dvdp_mull.
  case: (eqVneq (u^`()) 0) => [d0|d0].
  + have Eu := extract_pow charp d0. have p2 : (1 < #|F|)%N := prime_gt1 (p_prime charp).
    have Sx : (size (extract u) <= 1)%N.
      apply: (H _ (extract u ^+ (#|F| - 2) * (f %/ u))). by rewrite [X in _ * X]mulrA -exprS mulrA -exprS -subSn // subSS subn1 prednK ?(ltnW p2) // -Eu mulrC.
    have : (size u <= 1)%N by rewrite Eu (size1_polyC Sx) -polyC_exp size_polyC leq_b1.
    by rewrite leqNgt Su.
  + have C : coprimep u u^`().
      rewrite /coprimep. case: (eqVneq (size (gcdp u u^`())) 1%N) => // S7. have := X _ S7 (dvdp_gcdl _ _).
      move/eqp_dvdl. move/(_ (u^`())). rewrite dvdp_gcdr => /esym/(dvdp_leq d0) L.
      by have := lt_size_deriv (irredp_neq0 Iu); rewrite ltnNge L.
    have Du2 : u %| f %/ u by rewrite -(Gauss_dvdpl _ C).
    have := H u ((f %/ u) %/ u). rewrite [u * (_ %/ u %/ u)]mulrC divpK // mulrC -Ef => /(_ erefl). by rewrite leqNgt Su.
Qed.
End Sep.

Section Main.
Context (p : Z) (Hp : modulus p) (Pr : Znumtheory.prime p).
Notation K := (Zpc p Hp).
Notation zup := (list (Z * zpc p)).
Let HF : field_ok K := Zpc_field p Hp Pr.
Let HD : domain_ok K := field_domain K HF.
Let HK : ring_ok K := domain_ring K HD.
Notation F := 'F_(FactorZpBase.q p).
Lemma req_T (f a b : zup) : unormal Hp f -> unormal Hp a -> unormal Hp b -> (req K (graw usm f) (rmul K (graw usm a) (graw usm b)) <-> T f = T a * T b).
Proof. move=> Nf Na Nb. split; last exact: T_mul_req. by move=> E; rewrite /T (toF_req Pr E) toF_mul. Qed.
Lemma deg_size1 (f : zup) : unormal Hp f -> f <> [::] -> (udeg f = 0%CZ <-> size (T f) = 1%N).
Proof.
move=> N H. have := T_neq0 Pr N H. rewrite -size_poly_gt0 (T_deg Pr N) => S. split; first exact: h_udeg0.
by move=> ->.
Qed.
Lemma sep_of_squarefree (f : zup) : unormal Hp f -> f <> [::] -> squarefree_mod Hp f -> separable_poly (T f).
Proof.
move=> N Hf S. have f0 := T_neq0 Pr N Hf. apply: (@nosq_sep [finFieldType of F] (char_q Hp Pr) (T f) _ f0) => u v E.
have [A [NA EA]] := T_surj Hp Pr u. have [B [NB EB]] := T_surj Hp Pr v.
have u0 : u != 0 by apply: contraNneq f0 => u0; rewrite E u0 mul0r.
have [C [EC NC TC]] := zmul_ok Pr NA NB.
have HA : A <> [::] by move=> A0; move: u0; rewrite -EA A0 T_nil eqxx.
rewrite -EA. have -> // : size (T A) = 1%N. apply/(deg_size1 NA HA). apply: (S A B NA NB).
have Q1 : req K (graw usm f) (rmul K (graw usm A) (graw usm C)) by apply/(req_T N NA NC); rewrite TC EA EB.
have Q2 : req K (graw usm C) (rmul K (graw usm A) (graw usm B)) by apply/(req_T NC NA NB).
move=> m. rewrite (Q1 m). exact: (rmul_proper K HK _ _ (fun _ => erefl) _ _ Q2 m).
Qed.
Lemma squarefree_of_sep (f : zup) : unormal Hp f -> separable_poly (T f) -> squarefree_mod Hp f.
Proof.
move=> N S A B NA NB E. have ET : T f = T A * (T A * T B) by rewrite /T (toF_req Pr E) !toF_mul.
have : separable_poly (T A * (T A * T B)) by rewrite -ET.
rewrite separable_mul => /and3P[_ _ C].
have : coprimep (T A) (T A) by apply: coprimep_dvdl C; exact: dvdp_mulr.
rewrite coprimepp => /eqP SA. by rewrite (T_deg Pr NA) SA.
Qed.
Lemma irr_of_spec (u : zup) : unormal Hp u -> irreducible_mod Hp u -> irreducible_poly (T u).
Proof.
move=> N [D I]. have Su : (1 < size (T u))%N.
  move: D. rewrite (T_deg Pr N). by case: (size _) => [|[|k]].
split=> // v Sv Dv. have Ev : T u = (T u %/ v) * v by rewrite divpK.
have u0 : T u != 0 by rewrite -size_poly_gt0 ltnW.
have [A [NA EA]] := T_surj Hp Pr (T u %/ v). have [B [NB EB]] := T_surj Hp Pr v.
have [A0 B0] : T A != 0 /\ T B != 0 by apply/andP; rewrite -negb_or -mulf_eq0 EA EB -Ev.
have [A1 B1] : A <> [::] /\ B <> [::] by split; [move: A0|move: B0] => + X; rewrite X T_nil eqxx.
have [/(deg_size1 NA A1) S1|/(deg_size1 NB B1) S1] := I A B NA NB ltac:(by apply/(req_T N NA NB); rewrite EA EB).
- have /eqP/size_poly1P[a a0 Ea] := S1. rewrite Ev -EA Ea mul_polyC. by rewrite eqp_sym eqp_scale.
- by move: Sv; rewrite -EB S1 eqxx.
Qed.
Lemma divides_T (g f : zup) : unormal Hp g -> unormal Hp f -> divides_mod Hp g f <-> T g %| T f.
Proof.
move=> Ng Nf. split.
- by move=> [B [NB /(req_T Nf Ng NB) ->]]; rewrite dvdp_mulr.
- move=> D. have [B [NB EB]] := T_surj Hp Pr (T f %/ T g). exists B. split=> //. by apply/(req_T Nf Ng NB); rewrite EB mulrC divpK.
Qed.
Lemma norm_plain (l : list (zup * Z)) : List.Forall (fun t => unormal Hp t.1) l -> exists r, unormal Hp r /\ req K (graw usm r) (plain_product Hp l).
Proof.
elim: l => [|[h e] l IH] H.
- have [N _] := one_ok Hp Pr. exists [:: (0%CZ, c1 K)]. split; [exact: N|exact: (one_req Hp)].
- have [r [Nr Er]] := IH (List.Forall_inv_tail H). have Nh := List.Forall_inv H. rewrite /= in Nh.
  have [u [_ [Nu Eu]]] := p_mul_ok uniS uok usm K uniS_ok HK HD no_compress h r (conj I I) Nh Nr. exists u. split=> //.
  move=> m. rewrite (Eu m). exact: (rmul_proper K HK _ _ (fun _ => erefl) _ _ Er m).
Qed.
Lemma toF_plain (l : list (zup * Z)) : toF (plain_product Hp l) = \prod_(t <- l) T t.1.
Proof.
elim: l => [|[h e] l IH]; first by rewrite big_nil /= toF_const phi_1.
by rewrite big_cons /= toF_mul // IH.
Qed.
Lemma const_times (f r : zup) P : unormal Hp f -> unormal Hp r -> req K (graw usm r) P -> T f != 0 -> T f %= toF P ->
  exists c, c <> c0 K /\ req K (graw usm f) (rmul K (rconst c) P).
Proof.
move=> N Nr Er f0 E. have Er' : T r = toF P := toF_req Pr Er. rewrite -Er' in E.
have /eqpf_eq[c c0' Ec] := E. have Ep : phi (phinv Hp c) = c := phinvK Hp Pr c. 
have Hc : phinv Hp c <> c0 K. { move=> H. case/eqP: c0'. rewrite -Ep H. exact: phi_0. }
exists (phinv Hp c). split=> //.
have Tr : T f = T [:: (0%CZ, phinv Hp c)] * T r by rewrite Ec T_cons T_nil addr0 expr0 alg_polyC mul_polyC Ep.
have Q := T_mul_req Pr N (n_one (Z.le_refl 0) Hc) Nr Tr.
move=> m. rewrite (Q m). apply: (rmul_proper K HK) => //. apply: (req_single K) => // v. rewrite exp_usm. by case: N.eqb_spec.
Qed.
Lemma monic_spec (h : zup) : unormal Hp h -> T h \is monic -> monic_poly Hp h.
Proof.
case: h => [|[e c] h] N M; first by rewrite T_nil monicE lead_coef0 eq_sym oner_eq0 in M.
rewrite /=. apply: (phi_inj Hp Pr). rewrite phi_1 //. move: M. by rewrite monicE (T_lead Pr N) => /eqP.
Qed.
Context (srt : zup -> zup).
(** C50.  For a square-free f the distinct-degree stage answers pairs (g, d) of monic polynomials with strictly increasing
    numbers d such that f is a constant times the product of the g, and every irreducible divisor of g has degree d. *)
Theorem C50_distinct_degree : forall fuel f R, unormal Hp f -> f <> [::] -> (udeg f < maxdeg)%CZ -> squarefree_mod Hp f ->
  ddf p Hp srt fuel f = Ok R ->
  (exists c, c <> c0 K /\ req K (graw usm f) (rmul K (rconst c) (plain_product Hp R))) /\
  List.Forall (fun t => unormal Hp (fst t) /\ monic_poly Hp (fst t) /\ (0 < udeg (fst t))%CZ /\
    (forall u, unormal Hp u -> irreducible_mod Hp u -> divides_mod Hp u (fst t) -> udeg u = snd t)) R /\
  Sorted.StronglySorted (@smaller p) R.
Proof.
move=> fuel f R N Hf D Sq E. have [G P I] := ddf_ok Pr N D (sep_of_squarefree N Hf Sq) E.
split; [|split].
- have [r [Nr Er]] : exists r, unormal Hp r /\ req K (graw usm r) (plain_product Hp R).
    apply: norm_plain. apply: List.Forall_impl G => t [[H _ _ _] _]. exact: H.
  apply: (const_times N Nr Er); first exact: T_neq0. by rewrite toF_plain.
- apply: List.Forall_impl G => t [[Ng Mg d0 Mi] [[U _] Mx]]. split=> //. split; first exact: monic_spec. split=> //.
  move=> u Nu Iu /(divides_T Nu Ng) Du. have Iu' := irr_of_spec Nu Iu. have [Su _] := Iu'.
  have L1 := Mi _ Du Su. have L2 := Mx _ Iu' Du. rewrite (T_deg Pr Nu).
  have -> : (size (T u)).-1 = Z.to_nat t.2 by apply/eqP; rewrite eqn_leq L2 -ltnS prednK // ltnW.
  by rewrite Z2Nat.id //; exact: Z.lt_le_incl.
- have X : forall l d, incr d l -> Sorted.StronglySorted (@smaller p) l /\ List.Forall (fun t => d <= snd t)%CZ l.
    elim=> [|t l IH] d /=; first by split; constructor. move=> [H1 /IH[H2 H3]]. split.
      constructor=> //. apply: List.Forall_impl H3 => v. rewrite /smaller. clear. lia.
    constructor=> //. apply: List.Forall_impl H3 => v. clear - H1. lia.
  by have [] := X _ _ I.
Qed.
(** C51.  The square-free stage answers pairs (g, e) of monic square-free polynomials of positive degree with pairwise
    different positive exponents, pairwise without a common divisor, such that f is a constant times the product of the g^e. *)
Theorem C51_squarefree : forall fuel f R, unormal Hp f -> f <> [::] -> (udeg f < maxdeg)%CZ ->
  squarefree p Hp srt fuel f = Ok R ->
  (exists c, c <> c0 K /\ req K (graw usm f) (rmul K (rconst c) (zproduct Hp R))) /\
  List.Forall (fun t => unormal Hp (fst t) /\ monic_poly Hp (fst t) /\ (0 < udeg (fst t))%CZ /\ (0 < snd t)%CZ /\ squarefree_mod Hp (fst t)) R /\
  List.NoDup (map snd R) /\
  (forall t u h, List.In t R -> List.In u R -> t <> u -> unormal Hp h -> divides_mod Hp h (fst t) -> divides_mod Hp h (fst u) -> udeg h = 0%CZ).
Proof.
move=> fuel f R N Hf D E. have [L [iota _]] := countable_algebraic_closure [countFieldType of F].
have [G Sq] := squarefree_ok Pr iota N D E. have [Es Un C] := Sq.
have Inj : forall t u, List.In t R -> List.In u R -> Z.to_nat t.2 = Z.to_nat u.2 -> t.2 = u.2.
  move=> t u /((List.Forall_forall _ _).1 G)[_ _ H1 _] /((List.Forall_forall _ _).1 G)[_ _ H2 _] H. clear - H H1 H2. lia.
have ND : List.NoDup (map snd R).
  have : uniq [seq Z.to_nat t.2 | t <- R] by move: Un; rewrite /SQ -map_comp.
  elim: (R) Inj => [|t l IH] Inj /=; first by constructor.
  move=> /andP[X Y]. constructor; last by apply: IH => // a b Ha Hb; apply: Inj; right.
  move=> Hin. move/negP: X; apply. have [u [Eu Hu]] := (List.in_map_iff _ _ _).1 Hin. rewrite -Eu.
  elim: (l) Hu => [|v l' IHl] //= [->|/IHl H]; by rewrite inE ?eqxx // H orbT.
split; [|split; [|split]] => //.
- have [r [Nr Er]] : exists r, unormal Hp r /\ req K (graw usm r) (zproduct Hp R).
    apply: (norm_product Pr). apply: List.Forall_impl G => t [H _ _ _]. exact: H.
  apply: (const_times N Nr Er); first exact: T_neq0. rewrite toF_product //. by rewrite PT_SQ.
- apply/List.Forall_forall => t Ht. have [Ng Mg e0 Dg] := (List.Forall_forall _ _).1 G t Ht. split=> //. split; first exact: monic_spec.
  split; last first. split=> //. apply: squarefree_of_sep => //. exact: (sqf_sep (char_q Hp Pr) Sq (in_SQ Ht)).
  have [_ Sz _] := C _ (in_SQ Ht). rewrite (T_deg Pr Ng). exact: h_pos.
- move=> t u h Ht Hu Ne Nh Dt Du. have [Ngt _ e1 _] := (List.Forall_forall _ _).1 G t Ht. have [Ngu _ e2 _] := (List.Forall_forall _ _).1 G u Hu.
  have /(divides_T Nh Ngt) Dt' := Dt. have /(divides_T Nh Ngu) Du' := Du. rewrite (T_deg Pr Nh).
  case: (leqP (size (T h)) 1) => [|Sh]; first by case: (size _) => [|[|k]].
  have /(Inj _ _ Ht Hu) Ee := sqf_cop Sq (in_SQ Ht) (in_SQ Hu) Sh Dt' Du'. exfalso. apply: Ne.
  clear - ND Ht Hu Ee. elim: (R) ND Ht Hu => [|v l IH] //= /List.NoDup_cons_iff[Hn Hl].
  case=> [Ev|Ht] [Eu|Hu]; [by rewrite -Ev| | |exact: IH].
  + case: Hn. have := List.in_map snd _ _ Hu. rewrite -Ee -Ev. exact.
  + case: Hn. have := List.in_map snd _ _ Ht. rewrite Ee -Eu. exact.
Qed.
(** ** Unique factorization *)
Lemma irr_cop (u v : {poly F}) : irreducible_poly u -> irreducible_poly v -> u \is monic -> v \is monic -> u != v -> coprimep u v.
Proof.
move=> [Su Iu] [Sv Iv] Mu Mv Ne. rewrite /coprimep. case: (eqVneq (size (gcdp u v)) 1%N) => // S1.
have E1 := Iu _ S1 (dvdp_gcdl _ _). have E2 := Iv _ S1 (dvdp_gcdr _ _).
have : u %= v by apply: eqp_trans E2; rewrite eqp_sym.
by rewrite eqp_monic // (negbTE Ne).
Qed.
Lemma cop_PT (u : {poly F}) R : irreducible_poly u -> u \is monic -> List.Forall (fgood Hp) R -> u \notin TS R -> coprimep u (PT R).
Proof.
move=> Iu Mu. elim: R => [|v l IH] G; first by rewrite /PT big_nil coprimep1.
rewrite /TS /= inE negb_or => /andP[Ne Hin]. have [[_ Mv Iv] _] := List.Forall_inv G.
rewrite /PT big_cons coprimepMr (IH (List.Forall_inv_tail G) Hin) andbT. apply: coprimep_expr. exact: irr_cop.
Qed.
Lemma dvd_PT (u : {poly F}) e R : irreducible_poly u -> u \is monic -> (0 < e)%N -> List.Forall (fgood Hp) R -> uniq (TS R) -> u ^+ e %| PT R ->
  exists v, [/\ List.In v R, T v.1 = u & (e <= Z.to_nat v.2)%N].
Proof.
move=> Iu Mu e0. have [Su _] := Iu. elim: R => [|v l IH] G.
  rewrite /PT big_nil => _ D. have : u %| 1 := dvdp_trans (dvdp_exp e0 (dvdpp u)) D. by rewrite dvdp1 => /eqP E; rewrite E in Su.
rewrite /TS /= => /andP[X Y]. have [[_ Mv Iv] _] := List.Forall_inv G. have G' := List.Forall_inv_tail G.
rewrite /PT big_cons. case: (eqVneq (T v.1) u) => [Ev|Ne] D.
- have C : coprimep (u ^+ e) (PT l) by apply: coprimep_expl; apply: cop_PT => //; rewrite -Ev.
  exists v. split=> //; first by left. move: D. rewrite Gauss_dvdpl // Ev. by rewrite dvdp_Pexp2l.
- have C : coprimep (u ^+ e) (T v.1 ^+ Z.to_nat v.2) by apply: coprimep_expl; apply: coprimep_expr; apply: irr_cop => //; rewrite eq_sym.
  rewrite Gauss_dvdpr // in D. have [w [Hw Ew Le]] := IH G' Y D. exists w. split=> //. by right.
Qed.
Lemma dvd_PT_in (R : list (zup * Z)) t : List.In t R -> T t.1 ^+ Z.to_nat t.2 %| PT R.
Proof.
elim: R => [|v l IH] //= [->|/IH H]; rewrite /PT big_cons; first exact: dvdp_mulr.
exact: dvdp_mull.
Qed.
Lemma PT_in (R1 R2 : list (zup * Z)) t : List.Forall (fgood Hp) R1 -> List.Forall (fgood Hp) R2 -> uniq (TS R1) -> uniq (TS R2) -> PT R1 = PT R2 -> List.In t R1 -> List.In t R2.
Proof.
move=> G1 G2 U1 U2 E Ht. have [[N1 M1 I1] e1] := (List.Forall_forall _ _).1 G1 t Ht.
have [v [Hv Ev Le]] := dvd_PT I1 M1 (h_topos e1) G2 U2 ltac:(by rewrite -E; exact: dvd_PT_in).
have [[N2 M2 I2] e2] := (List.Forall_forall _ _).1 G2 v Hv.
have [w [Hw Ew Le']] := dvd_PT I2 M2 (h_topos e2) G1 U1 ltac:(by rewrite E; exact: dvd_PT_in).
have [[N3 _ _] _] := (List.Forall_forall _ _).1 G1 w Hw.
have Ewt : w = t.
  have X : T w.1 = T t.1 by rewrite Ew Ev. clear - U1 Ht Hw X. elim: (R1) U1 Ht Hw => [|x l IH] // /andP[H1 H2] [Et|Ht] [Ew|Hw].
  - by rewrite -Et.
  - case/negP: H1. rewrite Et -X. clear - Hw. elim: (l) Hw => [|y l' IHl] //= [->|/IHl H]; by rewrite inE ?eqxx // H orbT.
  - case/negP: H1. rewrite Ew X. clear - Ht. elim: (l) Ht => [|y l' IHl] //= [->|/IHl H]; by rewrite inE ?eqxx // H orbT.
  - exact: IH.
subst w. have E1 := T_inj Pr N1 N2 (esym Ev).
have E2 : t.2 = v.2 by clear - Le Le' e1 e2; move: Le Le' => /leP A /leP B; lia.
case: (t) (v) E1 E2 Hv => [a b] [a' b'] /= -> ->. exact.
Qed.
(** C49, second part.  The factorization does not depend on the random numbers, the sorting algorithm or the number of
    rounds: any two runs that answer give the same constant and the same pairs, up to their order. *)
Theorem C49_deterministic : forall srt' rsort1 rsort2 draw1 draw2 fuel1 fuel2 f c1 c2 fs1 fs2,
  sorts_by_degree rsort1 -> sorts_by_degree rsort2 -> draws p draw1 -> draws p draw2 -> unormal Hp f -> f <> [::] -> (udeg f < maxdeg)%CZ ->
  factor_zp p Hp srt rsort1 draw1 fuel1 f = Ok (c1, fs1) -> factor_zp p Hp srt' rsort2 draw2 fuel2 f = Ok (c2, fs2) ->
  c1 = c2 /\ Permutation.Permutation fs1 fs2.
Proof.
move=> srt' rsort1 rsort2 draw1 draw2 fuel1 fuel2 f b1 b2 fs1 fs2 Hs1 Hs2 Hd1 Hd2 N Hf D E1 E2.
have [ET1 A1 U1 [e1 [r1 Er1]]] := factor_T Pr Hd1 (fun l => (Hs1 l).1) N D E1.
have [ET2 A2 U2 [e2 [r2 Er2]]] := factor_T Pr Hd2 (fun l => (Hs2 l).1) N D E2.
have Eb : b1 = b2 by move: Er2; rewrite Er1; case. split=> //.
have P : PT fs1 = PT fs2.
  have f0 := T_neq0 Pr N Hf. move: ET2. rewrite ET1 Eb. apply: scalerI.
  by apply: contraNneq f0 => H; rewrite ET1 Eb H scale0r.
have ND R : uniq (TS R) -> List.NoDup R.
  elim: R => [|t l IH] /=; first by constructor. move=> /andP[X Y]. constructor; last exact: IH.
  move=> Hin. case/negP: X. elim: (l) Hin => [|y l' IHl] //= [->|/IHl H]; by rewrite inE ?eqxx // H orbT.
apply: Permutation.NoDup_Permutation => [||t]; [exact: ND|exact: ND|split].
- exact: PT_in.
- exact: PT_in.
Qed.
End Main.
Print Assumptions C50_distinct_degree.
Print Assumptions C51_squarefree.
Print Assumptions C49_deterministic.

(** ** The hypotheses are met *)
Definition show_list (p : Z) (o : outcome (list (list (Z * zpc p) * Z))) :=
  match o with Ok l => Ok (map (fun t => (to_list (fst t), snd t)) l) | Throw => Throw | UB => UB | OutOfFuel => OutOfFuel end.
(** (x+1) (x^2+1) (x^2+x+2) modulo 3 *)
Definition ex_g3 : list (Z * zpc 3) := of_list m3 [:: (5, 1); (4, 2); (3, 1); (2, 1); (0, 2)]%CZ.
Example C50_example : show_list (ddf 3 m3 id 40 ex_g3) = Ok [:: ([:: (1, 1); (0, 1)], 1); ([:: (4, 1); (3, 1); (1, 1); (0, 2)], 2)]%CZ.
Proof. by vm_compute. Qed.
Example C51_example : show_list (squarefree 3 m3 id 40 (of_list m3 ex_f3)) =
  Ok [:: ([:: (4, 1); (3, 1); (1, 1); (0, 2)], 1); ([:: (1, 1); (0, 1)], 3)]%CZ.
Proof. by vm_compute. Qed.
Lemma show_inj p (a b : list (Z * zpc p)) : to_list a = to_list b -> a = b.
Proof. elim: a b => [|[x c] a IH] [|[y d] b] //= [-> Hc /IH ->]. by rewrite (zpc_eq p c d Hc). Qed.
Lemma show_one p o (g : list (Z * zpc p)) : show_list o = Ok [:: (to_list g, 1%CZ)] -> o = Ok [:: (g, 1%CZ)].
Proof. case: o => [[|[h e] [|u l]]| | |] //= [/show_inj -> ->]. exact erefl. Qed.
Lemma one_squarefree p (Hp : modulus p) (g : list (Z * zpc p)) n : Znumtheory.prime p -> unormal Hp g -> g <> [::] -> (udeg g < maxdeg)%CZ ->
  squarefree p Hp id n g = Ok [:: (g, 1%CZ)] -> squarefree_mod Hp g.
Proof. move=> Pr N Hg D E. have [_ [X _]] := C51_squarefree Pr N Hg D E. have [_ [_ [_ [_ Y]]]] := List.Forall_inv X. exact: Y. Qed.
Example C50_hypotheses : [/\ unormal m3 ex_g3, ex_g3 <> [::], (udeg ex_g3 < maxdeg)%CZ & squarefree_mod m3 ex_g3].
Proof.
have N : unormal m3 ex_g3 by split; [|split]; repeat constructor.
have D : (udeg ex_g3 < maxdeg)%CZ by [].
have E : show_list (squarefree 3 m3 id 40 ex_g3) = Ok [:: (to_list ex_g3, 1%CZ)] by vm_compute.
have Hg : ex_g3 <> [::] by discriminate.
exact (And4 N Hg D (one_squarefree Znumtheory.prime_3 N Hg D (show_one E))).
Qed.
