(** * The polynomials of FactorZp.v seen as mathcomp polynomials over the field of p elements. *)
From Coq Require Znumtheory.
From Verif Require Import Prelude Coef Spec SpecProofs SpecOps SpecOpsProofs GcdDom GcdPoly GcdMath GcdProofs OrderSpec PairVec PairVecProofs MonoStruct MonoStructProofs Heap Poly PolyMulProofs Div PolyDivProofs
  PolyOps PolyOpsProofs ConvertProofs Zp NumSpec ZpProofs GcdHom UGcd UGcdBase UGcdMod Props_Res FactorZp.
From mathcomp Require Import all_ssreflect all_algebra all_field ssrZ.
From Verif Require Import FzpMath FzpDdf.
Import GRing.Theory.
Set Implicit Arguments.
Unset Strict Implicit.
Local Open Scope ring_scope.
Delimit Scope Z_scope with CZ.

Section B.
Context (p : Z) (Hp : modulus p) (Pr : Znumtheory.prime p).
Notation K := (Zpc p Hp).
Notation zup := (list (Z * zpc p)).
Notation unorm := (normal uok (m_gt uniS) K).
Let HF : field_ok K := Zpc_field p Hp Pr.
Let HD : domain_ok K := field_domain K HF.
Let HK : ring_ok K := domain_ring K HD.
Let HG : cgcd_ok K := field_cgcd K HF.
Definition q : nat := Z.to_nat p.
Notation F := 'F_q.
Lemma q_Z : Z.of_nat q = p. Proof. rewrite /q Z2Nat.id //. case: Hp. lia. Qed.
Lemma q_prime : prime q.
Proof.
apply/primeP. split; first by case: Hp; rewrite -q_Z; lia.
move=> d /dvdnP[k E]. have D : (Z.of_nat d | p)%CZ by exists (Z.of_nat k); rewrite -q_Z E; lia.
have [H|[H|[H|H]]] := Znumtheory.prime_divisors p Pr _ D.
- exfalso. lia.
- apply/orP; left; apply/eqP. lia.
- apply/orP; right; apply/eqP. rewrite -q_Z in H. lia.
- exfalso. case: Hp. lia.
Qed.
Lemma card_q : #|[finFieldType of F]| = q. Proof. exact: card_Fp q_prime. Qed.
Lemma char_q : #|[finFieldType of F]| \in [char F].
Proof. by rewrite card_q; apply: char_Fp q_prime. Qed.
Definition psi (z : Z) : F := (int_of_Z z)%:~R.
Lemma psi_is_rmorphism : rmorphism psi.
Proof.
split; first by move=> a b; rewrite /psi raddfB /= rmorphB.
by split=> [a b|]; rewrite /psi ?rmorphM ?rmorph1.
Qed.
Canonical psi_additive := Additive psi_is_rmorphism.
Canonical psi_rmorphism := RMorphism psi_is_rmorphism.
Lemma psi_nat n : psi (Z.of_nat n) = n%:R.
Proof. by rewrite /psi; case: n => [|n] //=; rewrite SuccNat2Pos.id_succ. Qed.
Lemma psi_add a b : psi (a + b)%CZ = psi a + psi b. Proof. exact: (rmorphD psi_rmorphism). Qed.
Lemma psi_mul a b : psi (a * b)%CZ = psi a * psi b. Proof. exact: (rmorphM psi_rmorphism). Qed.
Lemma psi_opp a : psi (- a)%CZ = - psi a. Proof. exact: (rmorphN psi_rmorphism). Qed.
Lemma psi_sub a b : psi (a - b)%CZ = psi a - psi b. Proof. exact: (rmorphB psi_rmorphism). Qed.
Lemma psi_p : psi p = 0.
Proof. by rewrite -q_Z psi_nat; apply: charf0; apply: char_Fp q_prime. Qed.
Lemma psi_mod z : psi (z mod p)%CZ = psi z.
Proof.
have p0 : (p <> 0)%CZ by case: Hp; lia.
by rewrite {2}(Z.div_mod z p p0) psi_add psi_mul psi_p mul0r add0r.
Qed.
Lemma psi_0 z : (0 <= z < p)%CZ -> psi z = 0 -> z = 0%CZ.
Proof.
move=> H. rewrite -(Z2Nat.id z) ?psi_nat; last by case: H. move/eqP. rewrite -(dvdn_charf (char_Fp q_prime)) => D.
have := q_Z => Eq. case: (posnP (Z.to_nat z)) => [->//|L]. have := dvdn_leq L D. lia.
Qed.
Definition phi (a : zpc p) : F := psi (proj1_sig a).
Lemma phi_of z : phi (zpc_of p Hp z) = psi z. Proof. by rewrite /phi v_of psi_mod. Qed.
Lemma phi_add a b : phi (cadd K a b) = phi a + phi b. Proof. by rewrite /phi v_add psi_mod psi_add. Qed.
Lemma phi_sub a b : phi (csub K a b) = phi a - phi b. Proof. by rewrite /phi v_sub psi_mod psi_sub. Qed.
Lemma phi_mul a b : phi (cmul K a b) = phi a * phi b. Proof. by rewrite /phi v_mul psi_mod psi_mul. Qed.
Lemma phi_0 : phi (c0 K) = 0. Proof. exact: phi_of. Qed.
Lemma phi_1 : phi (c1 K) = 1. Proof. rewrite phi_of. exact: (psi_nat 1). Qed.
Lemma phi_eq0 a : phi a = 0 -> a = c0 K.
Proof.
move=> H. apply: zpc_eq. rewrite [X in _ = X]v_of Z.mod_0_l; last by case: Hp; lia. apply: psi_0 => //. exact: zpc_res.
Qed.
Lemma phi_inj a b : phi a = phi b -> a = b.
Proof.
move=> E. have Z0 : csub K a b = c0 K by apply: phi_eq0; rewrite phi_sub E subrr.
have R := ring_laws K HK. have := Ring_theory.Rsub_def R a b. rewrite Z0 => E1.
have : cadd K (c0 K) b = a.
  by rewrite E1 -(Ring_theory.Radd_assoc R) (Ring_theory.Radd_comm R (copp K b)) (Ring_theory.Ropp_def R) (Ring_theory.Radd_comm R) (Ring_theory.Radd_0_l R).
by rewrite (Ring_theory.Radd_0_l R).
Qed.
Definition phinv (x : F) : zpc p := zpc_of p Hp (Z.of_nat x).
Lemma phinvK x : phi (phinv x) = x.
Proof. by rewrite phi_of psi_nat natr_Zp. Qed.

(** ** From the specification polynomials to {poly F} *)
Definition PF : coefs {poly F} := Coefs {poly F} 0 1 (fun a b => a + b) (fun a b => a * b) (fun a b => a - b) (fun a => - a) (fun a b => a == b) (fun a _ => a) (fun _ _ => 0).
Lemma PF_ring : ring_ok PF.
Proof.
split; last by move=> a b; split=> [/eqP|/eqP].
split=> /=; intros; rewrite ?add0r ?mul1r ?mulrDl ?subrr //; [exact: addrC|exact: addrA|exact: mulrC|exact: mulrA].
Qed.
Notation phiC := (fun c : zpc p => (phi c)%:P).
Definition toF (r : rpoly (zpc p)) : {poly F} := reval PF (fun _ => 'X) (rmapc phiC r).
Lemma phiC0 : phiC (c0 K) = c0 PF. Proof. transitivity ((0 : F)%:P); [exact: (congr1 polyC phi_0)|exact: polyC0]. Qed.
Lemma phiCD a b : phiC (cadd K a b) = cadd PF (phiC a) (phiC b). Proof. transitivity ((phi a + phi b)%:P); [exact: (congr1 polyC (phi_add a b))|exact: polyCD]. Qed.
Lemma phiCM a b : phiC (cmul K a b) = cmul PF (phiC a) (phiC b). Proof. transitivity ((phi a * phi b)%:P); [exact: (congr1 polyC (phi_mul a b))|exact: polyCM]. Qed.
Lemma toF_req (f g : rpoly (zpc p)) : req K f g -> toF f = toF g.
Proof.
move=> E. rewrite /toF. have E' := rmapc_proper K PF phiC phiC0 phiCD _ _ E.
rewrite !(reval_rsum PF). exact: (rsum_req PF PF_ring _ (meval_proper PF PF_ring _) _ _ E').
Qed.
Lemma toF_mul (f g : rpoly (zpc p)) : toF (rmul K f g) = toF f * toF g.
Proof.
rewrite /toF. have E' := rmapc_mul K PF phiC phiC0 phiCD phiCM f g (rmul K f g) (fun _ => erefl).
transitivity (reval PF (fun _ => 'X) (rmul PF (rmapc phiC f) (rmapc phiC g))).
- rewrite !(reval_rsum PF). exact: (rsum_req PF PF_ring _ (meval_proper PF PF_ring _) _ _ E').
- exact: (reval_mul PF PF_ring).
Qed.
Lemma toF_add (f g : rpoly (zpc p)) : toF (radd f g) = toF f + toF g.
Proof. rewrite /toF /rmapc /radd map_app. exact: (reval_add PF PF_ring). Qed.
Lemma toF_const c : toF (rconst c) = (phi c)%:P.
Proof. by rewrite /toF /= mulr1 addr0. Qed.
Lemma toF_pow (f : rpoly (zpc p)) n : toF (rpow K f n) = toF f ^+ n.
Proof. elim: n => [|n IH] /=; first by rewrite (toF_const (c1 K)) phi_1 expr0. by rewrite toF_mul IH exprS. Qed.
Lemma cpow_X n : cpow PF 'X n = 'X^n.
Proof. by elim: n => [|n IH] //=; rewrite IH exprS. Qed.
Definition T (l : zup) : {poly F} := toF (graw usm l).
Lemma T_nil : T [::] = 0. Proof. by []. Qed.
Lemma T_cons e c (l : zup) : T ((e, c) :: l) = phi c *: 'X^(Z.to_nat e) + T l.
Proof. by rewrite /T /toF /= mulr1 cpow_X mul_polyC Z_N_nat. Qed.
Lemma T_cat (l1 l2 : zup) : T (l1 ++ l2) = T l1 + T l2.
Proof. elim: l1 => [|[e c] l1 IH]; first by rewrite T_nil add0r. by rewrite cat_cons !T_cons IH addrA. Qed.
Lemma T_coef (l : zup) i : List.Forall (fun t => uok (fst t)) l -> (T l)`_i = phi (coef K (graw usm l) (usm (Z.of_nat i))).
Proof.
elim: l => [|[e c] l IH] H; first by rewrite T_nil coef0 /= phi_0.
have He : (0 <= e)%CZ := List.Forall_inv H.
rewrite T_cons coefD coefZ coefXn IH; last exact: List.Forall_inv_tail H.
rewrite /=. have -> : meqb [:: (0%num, Z.to_N e)] (usm (Z.of_nat i)) = (i == Z.to_nat e).
  case: (meqb_spec [:: (0%num, Z.to_N e)] (usm (Z.of_nat i))) => E.
  - have := E 0%num. rewrite /usm /=. move=> X. apply/esym/eqP. lia.
  - apply/esym/eqP => X. apply: E => v. rewrite /usm /= X. case: (N.eqb_spec 0 v) => _ //. lia.
case: (i == _); first by rewrite mulr1 phi_add.
by rewrite mulr0 add0r.
Qed.

(** *** Normal forms *)
Lemma n_ok (l : zup) : unorm l -> List.Forall (fun t => uok (fst t)) l. Proof. by case. Qed.
Lemma n_in (l : zup) t : unorm l -> List.In t l -> (0 <= fst t)%CZ /\ snd t <> c0 K. Proof. exact: (unin K). Qed.
Lemma n_head (e : Z) (c : zpc p) (l : zup) t : unorm ((e, c) :: l) -> List.In t l -> (0 <= fst t < e)%CZ.
Proof. exact: (uhead_lt K (e, c) l t). Qed.
Lemma n_tl t (l : zup) : unorm (t :: l) -> unorm l. Proof. exact: (unorm_tl K). Qed.
Lemma n_cons (e : Z) (c : zpc p) (l : zup) : (0 <= e)%CZ -> c <> c0 K -> (forall t, List.In t l -> (fst t < e)%CZ) -> unorm l -> unorm ((e, c) :: l).
Proof.
move=> H0 Hc H N. apply/(normal_cons uok (m_gt uniS) K). split=> //. split=> //. split=> //. apply/List.Forall_forall => t Ht. rewrite /=. have := H t Ht. lia.
Qed.
Lemma n_nil : unorm ([::] : zup). Proof. by split; [|split]; constructor. Qed.
Lemma T_high (l : zup) i : unorm l -> (forall t, List.In t l -> (fst t < Z.of_nat i)%CZ) -> (T l)`_i = 0.
Proof.
elim: l => [|[e c] l IH] N H; first by rewrite T_nil coef0.
rewrite T_cons coefD coefZ coefXn IH; [|exact: n_tl N|by move=> t Ht; apply: H; right].
have := H (e, c) (or_introl erefl). have [/= He _] := n_in N (or_introl erefl). move=> L.
have -> : (i == Z.to_nat e) = false by apply/eqP; lia. by rewrite mulr0 addr0.
Qed.
Lemma T_size e c (l : zup) : unorm ((e, c) :: l) -> size (T ((e, c) :: l)) = (Z.to_nat e).+1.
Proof.
move=> N. have [/= He Hc] := n_in N (or_introl erefl).
have Hd : (T ((e, c) :: l))`_(Z.to_nat e) = phi c.
  rewrite T_cons coefD coefZ coefXn eqxx mulr1 T_high ?addr0 //; first exact: n_tl N. move=> t Ht. have := n_head N Ht. lia.
apply/eqP. rewrite eqn_leq. apply/andP. split.
- apply/leq_sizeP => j Hj. apply: T_high => // t [<-|Ht] /=; first lia. have := n_head N Ht. lia.
- rewrite ltnNge. apply/negP => L. apply: Hc. apply: phi_eq0. rewrite -Hd. by apply: nth_default.
Qed.
Lemma T_lead e c (l : zup) : unorm ((e, c) :: l) -> lead_coef (T ((e, c) :: l)) = phi c.
Proof.
move=> N. rewrite lead_coefE T_size // -pred_Sn. have [/= He Hc] := n_in N (or_introl erefl).
rewrite T_cons coefD coefZ coefXn eqxx mulr1 T_high ?addr0 //; first exact: n_tl N. move=> t Ht. have := n_head N Ht. lia.
Qed.
Lemma T_eq0 (l : zup) : unorm l -> T l = 0 -> l = [::].
Proof.
case: l => [|[e c] l] N // E. have := T_size N. by rewrite E size_poly0.
Qed.
Lemma T_neq0 (l : zup) : unorm l -> l <> [::] -> T l != 0.
Proof. by move=> N H; apply/eqP => /(T_eq0 N). Qed.
Lemma T_deg (l : zup) : unorm l -> udeg l = Z.of_nat (size (T l)).-1.
Proof.
case: l => [|[e c] l] N; first by rewrite T_nil size_poly0. rewrite T_size //= Z2Nat.id //. by have [/= He _] := n_in N (or_introl erefl).
Qed.
Lemma T_req (f g : zup) : unorm f -> unorm g -> T f = T g -> req K (graw usm f) (graw usm g).
Proof.
move=> Nf Ng E s. case E0 : (only0 s).
- have X : meq s (usm (Z.of_N (exp s 0%num))).
    move=> v. rewrite exp_usm N2Z.id. case: (N.eqb_spec 0 v) => [<-//|Nv]. by apply: (proj1 (only0_spec s) E0); congruence.
  rewrite (coef_proper K HK (graw usm f) _ _ X) (coef_proper K HK (graw usm g) _ _ X). apply: phi_inj.
  by rewrite -(N_nat_Z (exp s 0%num)) -!T_coef ?E //; apply: n_ok.
- have V (l : zup) : unorm l -> coef K (graw usm l) s = c0 K.
    move=> N. case: (c0_dec K HK (coef K (graw usm l) s)) => // Hc. exfalso. move/negP: E0; apply. apply/only0_spec => v Hv.
    case: (N.eq_dec (exp s v) 0) => // He. have [/esym|[]] := uinV K l s v Hc He. congruence.
  by rewrite !V.
Qed.
Lemma T_inj (f g : zup) : unorm f -> unorm g -> T f = T g -> f = g.
Proof.
move=> Nf Ng E. exact: ((gnormal_req uniS uok usm K uniS_ok HK _ _ Nf Ng).1 (T_req Nf Ng E)).
Qed.
Lemma T_surj_aux n (P : {poly F}) : (size P <= n)%N -> exists l, [/\ unorm l, T l = P & forall t, List.In t l -> (fst t < Z.of_nat n)%CZ].
Proof.
elim: n P => [|n IH] P S.
- exists [::]. split=> //; first exact: n_nil. rewrite T_nil. apply/eqP. by rewrite eq_sym -size_poly_leq0.
- have S' : (size (P - P`_n *: 'X^n)%R <= n)%N.
    apply/leq_sizeP => j Hj. rewrite coefB coefZ coefXn. case: (eqVneq j n) => [->|Ne]; first by rewrite mulr1 subrr.
    rewrite mulr0 subr0 nth_default //. apply: leq_trans S _. by rewrite ltn_neqAle eq_sym Ne.
  have [l [Nl El Bl]] := IH _ S'. case: (eqVneq P`_n 0) => [Z0|Nz].
  + exists l. split=> //; first by rewrite El Z0 scale0r subr0. move=> t /Bl. lia.
  + exists ((Z.of_nat n, phinv P`_n) :: l). split.
    * apply: n_cons => //; first lia. move=> E. move/eqP: Nz; apply. by rewrite -(phinvK P`_n) E phi_0.
    * by rewrite T_cons Nat2Z.id phinvK El addrC subrK.
    * move=> t [<-|/Bl] /=; lia.
Qed.
Lemma T_surj (P : {poly F}) : exists l, unorm l /\ T l = P.
Proof. by have [l [N E _]] := T_surj_aux (leqnn (size P)); exists l. Qed.
Lemma zmul_ok (f g : zup) : unorm f -> unorm g -> exists r, [/\ zmul p Hp f g = Ok r, unorm r & T r = T f * T g].
Proof.
move=> Nf Ng. have [r [E [N R]]] := p_mul_ok uniS uok usm K uniS_ok HK HD no_compress f g (conj I I) Nf Ng.
exists r. split=> //. by rewrite /T (toF_req R) toF_mul.
Qed.
Lemma T_mul_req (f g h : zup) : unorm f -> unorm g -> unorm h -> T f = T g * T h -> req K (graw usm f) (rmul K (graw usm g) (graw usm h)).
Proof.
move=> Nf Ng Nh E. have [r [N R]] : exists r, unorm r /\ req K (graw usm r) (rmul K (graw usm g) (graw usm h)).
  by have [r [_ H]] := p_mul_ok uniS uok usm K uniS_ok HK HD no_compress g h (conj I I) Ng Nh; exists r.
have -> : f = r by apply: T_inj => //; rewrite E /T (toF_req R) toF_mul. exact: R.
Qed.
Lemma T_dvd (f g : zup) : unorm f -> unorm g -> T g %| T f -> rdivides K (graw usm g) (graw usm f).
Proof.
move=> Nf Ng /divpK E. have [l [Nl El]] := T_surj (T f %/ T g). exists (graw usm l). apply: T_mul_req => //. by rewrite El E.
Qed.
Lemma dvd_T (f g : rpoly (zpc p)) : rdivides K g f -> toF g %| toF f.
Proof. case=> h E. by rewrite (toF_req E) toF_mul dvdp_mull. Qed.

(** *** The operations *)
Lemma zdiv_ok fuel (f g h : zup) : unorm f -> unorm g -> g <> [::] -> T g %| T f -> zdiv p Hp fuel f g = Ok h -> unorm h /\ T f = T h * T g.
Proof.
move=> Nf Ng Hg D E. have [N R] := updiv_ok K HD HG (Props_Res.field_quorem K HF) nohook2 fuel f g h Nf Ng Hg (T_dvd Nf Ng D) I E.
by split=> //; rewrite /T (toF_req R) toF_mul.
Qed.
Lemma zdivrem_runs (f g : zup) : unorm f -> unorm g -> g <> [::] -> exists a r n,
  [/\ unorm r, unorm a, T f = T a * T g + T r, (forall t, List.In t r -> (fst t < udeg g)%CZ) & forall fuel, (n <= fuel)%coq_nat -> zdivrem p Hp fuel f g = Ok (a, r)].
Proof.
move=> Nf Ng. case: g Ng => [|t g'] Ng // _.
have [a [r [[Na [Nr [I E]]] [n Hn]]]] := p_div_rem_ok uniS uok usm K uniS_ok HK HF nohook2 f (t :: g') t g' I Nf Ng erefl.
exists a, r, n. split=> //.
- by rewrite /T (toF_req E) toF_add toF_mul.
- move=> u Hu /=. have := (List.Forall_forall _ _).1 I u Hu. have [Ou _] := n_in Nr Hu. have [Ot _] := n_in Ng (or_introl erefl).
  case: (Z.lt_ge_cases (fst u) (fst t)) => // L Nd. exfalso. apply: Nd => v. rewrite !exp_usm. case: (N.eqb_spec 0 v) => _; lia.
Qed.
Lemma zdivrem_ok fuel (f g a r : zup) : unorm f -> unorm g -> g <> [::] -> zdivrem p Hp fuel f g = Ok (a, r) ->
  [/\ unorm r, T f = T a * T g + T r & forall t, List.In t r -> (fst t < udeg g)%CZ].
Proof.
move=> Nf Ng Hg E. have [a' [r' [n [Nr Na E' B H]]]] := zdivrem_runs Nf Ng Hg.
have [-> ->] : (a, r) = (a', r').
  apply: (fuel_agree (fun fuel => zdivrem p Hp fuel f g) fuel) => //; first exact: pair_vec_div_rem_mono. by exists n.
by [].
Qed.
Lemma mod_ok fuel (f g r : zup) : unorm f -> unorm g -> g <> [::] -> upoly_mod p Hp fuel f g = Ok r ->
  [/\ unorm r, T g %| T f - T r & forall t, List.In t r -> (fst t < udeg g)%CZ].
Proof.
move=> Nf Ng Hg. rewrite /upoly_mod. case E : (zdivrem p Hp fuel f g) => [[a r']| | |] //= [<-].
have [Nr Er B] := zdivrem_ok Nf Ng Hg E. split=> //. by rewrite Er addrK dvdp_mull.
Qed.
Lemma mod_runs (f g : zup) : unorm f -> unorm g -> g <> [::] -> exists r n, forall fuel, (n <= fuel)%coq_nat -> upoly_mod p Hp fuel f g = Ok r.
Proof.
move=> Nf Ng Hg. have [a [r [n [_ _ _ _ H]]]] := zdivrem_runs Nf Ng Hg. exists r, n => fuel L. by rewrite /upoly_mod H.
Qed.
Lemma gcd_ok fuel (f g r : zup) : unorm f -> unorm g -> (udeg f < maxdeg)%CZ -> (udeg g < maxdeg)%CZ -> uzp_gcd p Hp fuel f g = Ok r ->
  [/\ unorm r, T r %= gcdp (T f) (T g) & (f <> [::] \/ g <> [::] -> r <> [::])].
Proof.
move=> Nf Ng Df Dg E. have [Nr [[D1 [D2 G]] [H0 H1]]] := uzp_gcd_ok p Hp Pr fuel f g r Nf Ng Df Dg E.
split=> //; last by move=> /H1 [m [l ->]].
have T1 : T r %| T f := dvd_T D1. have T2 : T r %| T g := dvd_T D2.
apply/andP; split; first by rewrite dvdp_gcd T1.
have [l [Nl El]] := T_surj (gcdp (T f) (T g)). rewrite -El. apply: dvd_T. apply: G; apply: T_dvd => //; by rewrite El ?dvdp_gcdl ?dvdp_gcdr.
Qed.
Lemma make_monic_cons (m : Z) (c : zpc p) l : make_monic p Hp ((m, c) :: l) = (if (proj1_sig c =? 1)%CZ then Ok ((m, c) :: l) else umonic p Hp ((m, c) :: l)).
Proof. exact: erefl. Qed.
Lemma zpc_one (c : zpc p) : proj1_sig c = 1%CZ -> c = c1 K.
Proof. move=> E. apply: zpc_eq. rewrite E. change (c1 K) with (zpc_of p Hp 1). rewrite v_of Z.mod_small //. have [H _] := Hp. lia. Qed.
Lemma make_monic_eq (f : zup) : f <> [::] -> make_monic p Hp f = Ok f /\ (exists m l, f = (m, c1 K) :: l) \/ make_monic p Hp f = umonic p Hp f.
Proof.
case: f => [|[m c] l] // _. have := make_monic_cons m c l. case E : (proj1_sig c =? 1)%CZ => Em; last by right.
left. split; first exact: Em. exists m, l. congr ((_, _) :: _). apply: zpc_one. exact/Z.eqb_eq.
Qed.
Lemma T_scale (c : zpc p) (f : zup) : T (map (fun u => (fst u, cmul K (snd u) c)) f) = phi c *: T f.
Proof.
elim: f => [|[e a] f IH]; first by rewrite /= T_nil scaler0. by rewrite /= !T_cons IH phi_mul scalerDr scalerA mulrC.
Qed.
Lemma monic_ok (f g : zup) : unorm f -> make_monic p Hp f = Ok g -> [/\ unorm g, T g %= T f, T g \is monic & udeg g = udeg f].
Proof.
move=> Nf. case: (f =P [::]) => [->//|Hf]. have [[-> [m [l E]]] [<-]|->] := make_monic_eq Hf.
- split; [exact: Nf|exact: eqpxx| |exact: erefl]. rewrite monicE. move: Nf. rewrite E => Nf. by rewrite (T_lead Nf) phi_1.
- move=> E. have [Ng [D [[m [l El]] [c [i [E1 E2]]]]]] := umonic_ok p Hp Pr f g Nf E. split=> //.
  + rewrite /T (toF_req E1) toF_mul toF_const mul_polyC eqp_scale //. apply/eqP => c0.
    have := toF_req E2. rewrite toF_mul !toF_const c0 polyC0 mulr0 phi_1 polyC1 => /eqP. by rewrite eq_sym oner_eq0.
  + rewrite monicE. move: Ng. rewrite El => Ng. by rewrite (T_lead Ng) phi_1.
Qed.
Lemma monic_runs (f : zup) : unorm f -> f <> [::] -> exists g, make_monic p Hp f = Ok g.
Proof.
move=> Nf Hf. have [[-> _]|->] := make_monic_eq Hf; first by exists f. exact: (umonic_runs p Hp Pr f Nf Hf).
Qed.
Lemma monic_eq (f g : zup) : unorm f -> f <> [::] -> make_monic p Hp f = Ok g -> T f = lead_coef (T f) *: T g.
Proof.
move=> Nf Hf E. have [Ng Eq Mg _] := monic_ok Nf E. have /eqpf_eq[c c0 Ec] := Eq.
have : lead_coef (T g) = c * lead_coef (T f) by rewrite Ec lead_coefZ. rewrite (monicP Mg) => E1.
have f0 : lead_coef (T f) != 0 by rewrite lead_coef_eq0 T_neq0.
by rewrite Ec scalerA mulrC -E1 scale1r.
Qed.
Lemma T_deriv (f : zup) : unorm f -> unorm (u_derivative K f) /\ T (u_derivative K f) = (T f)^`().
Proof.
move=> N. split; first exact: (u_derivative_spec K HK f N).1.
elim: f N => [|[e c] f IH] N; first by rewrite T_nil linear0.
have [/= He _] := n_in N (or_introl erefl).
have Ek : phi (cmul K c (cofZ K e)) = phi c * (Z.to_nat e)%:R.
  rewrite phi_mul. congr (_ * _). rewrite (cofZ_cnat K HK e He). elim: (Z.to_nat e) => [|n IHn] /=; first exact: phi_0.
  by rewrite [LHS]phi_add phi_1 IHn mulrS.
have Eh : T (if (e =? 0)%CZ then [::] else (let k := cmul K c (cofZ K e) in if is0 K k then [::] else [:: ((e - 1)%CZ, k)])) = phi c *: ('X^(Z.to_nat e).-1 *+ Z.to_nat e).
  case: Z.eqb_spec => [->|Ne]; first by rewrite T_nil mulr0n scaler0.
  cbv zeta. move: (cmul K c (cofZ K e)) Ek => k Ek. case: (is0_spec K HK k) => Z0.
  - rewrite T_nil. apply/esym. rewrite -scaler_nat scalerA -Ek Z0 phi_0. by rewrite scale0r.
  - rewrite T_cons T_nil addr0 Ek (_ : Z.to_nat (e - 1) = (Z.to_nat e).-1); last lia. by rewrite -scalerA scaler_nat.
transitivity (T ((if (e =? 0)%CZ then [::] else (let k := cmul K c (cofZ K e) in if is0 K k then [::] else [:: ((e - 1)%CZ, k)])) ++ u_derivative K f)); first exact: erefl.
by rewrite T_cat (IH (n_tl N)) Eh T_cons derivD derivZ derivXn.
Qed.
Lemma pth_ok (f g : zup) : unorm f -> (T f)^`() = 0 -> extract_pth_root p f = Ok g -> unorm g /\ T g = extract (T f).
Proof.
move=> N D. case: (f =P [::]) => [->//|Hf]. have -> : extract_pth_root p f = Ok (map (fun t => ((fst t / p)%CZ, snd t)) f) by case: (f) Hf.
case=> <-. have p0 : (0 < p)%CZ by case: Hp; lia.
have Dv t : List.In t f -> (p | fst t)%CZ.
  case: t => e c Ht. have [/= He Hc] := n_in N Ht. have C : (T f)`_(Z.to_nat e) = phi c.
    rewrite T_coef; last exact: n_ok. congr phi. rewrite Z2Nat.id //. exact: (uin_coef K HD f (e, c) N Ht).
  case: (boolP (#|[finFieldType of F]| %| Z.to_nat e)%N) => [|Nd].
  + rewrite card_q => /dvdnP[k Ek]. exists (Z.of_nat k). have := q_Z. lia.
  + exfalso. apply: Hc. apply: phi_eq0. by rewrite -C (deriv0_coef char_q D Nd).
have Lt t u : List.In t f -> List.In u f -> (fst t < fst u)%CZ -> (fst t / p < fst u / p)%CZ.
  move=> /Dv[a ->] /Dv[b ->]. rewrite !Z.div_mul; [nia|lia|lia].
have Ex : extract (T f) = \sum_(t <- f) phi (snd t) *: 'X^(Z.to_nat (fst t / p)).
  apply/polyP => i. rewrite (coef_extract char_q) card_q coef_sum.
  have : forall t, List.In t f -> (0 <= fst t)%CZ /\ (p | fst t)%CZ by move=> t Ht; split; [have [] := n_in N Ht|exact: Dv].
  move: (f) => l. elim: l => [|[e c] l IH] H; first by rewrite T_nil coef0 big_nil.
  rewrite T_cons coefD big_cons /= !coefZ !coefXn IH; last by move=> t Ht; apply: H; right.
  congr (phi c * (nat_of_bool _)%:R + _). have [/= He [k Ek]] := H _ (or_introl erefl). rewrite Ek Z.div_mul; last lia.
  have := q_Z. move=> Eq. apply/eqP/eqP => X; nia.
split; last first.
  rewrite Ex. elim: (f) => [|[e c] l IH]; first by rewrite big_nil. by rewrite /= T_cons IH big_cons.
move: N Lt {Hf D Dv Ex}. elim: f => [|[e c] f IH] N Lt; first exact: n_nil.
have [/= He Hc] := n_in N (or_introl erefl). apply: n_cons => //; first exact: Z.div_pos.
- move=> t /List.in_map_iff[u [<- Hu]] /=. apply: (Lt u (e, c)); [by right|by left|]. exact: (proj2 (n_head N Hu)).
- apply: IH; first exact: n_tl N. move=> t u Ht Hu. apply: Lt; by right.
Qed.
Lemma card_p : #|[finFieldType of F]| = Z.to_nat p. Proof. exact: card_q. Qed.
Lemma p_pos : (0 < p)%CZ. Proof. by case: Hp; lia. Qed.

(** ** normalization() of a normal polynomial *)
Context (srt : zup -> zup).
Lemma znorm_id (f : zup) : unorm f -> znorm p Hp srt f = f.
Proof. exact: (normalization_id uok (m_gt uniS) (m_eq uniS) K (ms_order uniS uok usm uniS_ok) (ms_eq uniS uok usm uniS_ok) HK srt f). Qed.
Lemma nonconst_size (f : zup) : unorm f -> nonconst p f = (1 < size (T f))%N.
Proof.
case: f => [|[e c] l] N; first by rewrite T_nil size_poly0. rewrite (T_size N). have [/= He _] := n_in N (or_introl erefl).
rewrite /nonconst /=. apply/idP/idP; lia.
Qed.
Lemma size1 (f : zup) : unorm f -> f <> [::] -> ~~ nonconst p f -> size (T f) = 1%N.
Proof.
move=> N Hf. rewrite (nonconst_size N) -leqNgt => H. apply/eqP. rewrite eqn_leq H size_poly_gt0. exact: T_neq0.
Qed.
Lemma udeg_size (f : zup) : unorm f -> (0 < udeg f)%CZ -> size (T f) = (Z.to_nat (udeg f)).+1.
Proof. case: f => [|[e c] l] N //= _. exact: (T_size N). Qed.
Lemma udeg_dvd (f g : zup) : unorm f -> unorm g -> f <> [::] -> T g %| T f -> (udeg g <= udeg f)%CZ.
Proof.
move=> Nf Ng Hf D. have /leP := dvdp_leq (T_neq0 Nf Hf) D. rewrite (T_deg Nf) (T_deg Ng). case: (size (T g)) (size (T f)) => [|a] [|b] /=; lia.
Qed.
Lemma udeg_dvdmax (f g : zup) : unorm f -> unorm g -> f <> [::] -> T g %| T f -> (udeg f < maxdeg)%CZ -> (udeg g < maxdeg)%CZ.
Proof. move=> Nf Ng Hf D L. have := udeg_dvd Nf Ng Hf D. lia. Qed.
Lemma ne_T (f : zup) : T f != 0 -> f <> [::].
Proof. move=> H E. move: H. by rewrite E T_nil eqxx. Qed.
Definition below (n : Z) (f : zup) : Prop := forall t, List.In t f -> (fst t < n)%CZ.
Lemma below_udeg n (f : zup) : unorm f -> (0 < n)%CZ -> below n f -> (udeg f < n)%CZ.
Proof. case: f => [|t l] N n0 B //=. exact: (B t (or_introl erefl)). Qed.

(** ** subtracting x and 1 *)
Lemma phi_m1 : phi (minus_one p Hp) = -1.
Proof. rewrite phi_of psi_sub ?psi_p ?sub0r; [congr (- _); exact: (psi_nat 1)|..]. Qed.
Lemma m1_n0 : minus_one p Hp <> c0 K.
Proof. move=> E. have := phi_m1. rewrite E phi_0 => /eqP. by rewrite eq_sym oppr_eq0 oner_eq0. Qed.
Lemma sub1_phi (c : zpc p) : phi (csub K c (c1 K)) = phi c - 1.
Proof. by rewrite phi_sub phi_1. Qed.
Lemma n_one e (c : zpc p) : (0 <= e)%CZ -> c <> c0 K -> unorm [:: (e, c)].
Proof. move=> H0 H. apply: n_cons => //. exact: n_nil. Qed.
Definition subok (ins : bool) (h l : zup) : Prop :=
  [/\ unorm l, T l = T h - (if ins then 0 else 'X) &
      forall t, List.In t l -> (fst t = 1%CZ /\ ins = false) \/ exists2 u, List.In u h & fst u = fst t].
Lemma sub_x_go_ok (h : zup) ins : unorm h -> (ins = true -> below 1 h) ->
  subok ins h (sub_x_go p Hp ins h).
Proof.
elim: h ins => [|[e c] h IH] ins N B.
- case: ins B => B.
  + by split=> //; rewrite T_nil subr0.
  + split=> [||t [<-|[]]]; [exact: n_one m1_n0| |by left].
    change (sub_x_go p Hp false [::]) with [:: (1%CZ, minus_one p Hp)]. by rewrite T_cons T_nil phi_m1 scaleN1r expr1 addr0 add0r.
- have [/= He Hc] := n_in N (or_introl erefl). have Nh := n_tl N. have Hd t : List.In t h -> (0 <= fst t < e)%CZ := n_head N.
  have Lift (ins' : bool) (l : zup) : (forall t, List.In t l -> (fst t = 1%CZ /\ ins' = false) \/ exists2 u, List.In u h & fst u = fst t) -> (ins' = false -> ins = false) ->
    forall t, List.In t l -> (fst t = 1%CZ /\ ins = false) \/ exists2 u, List.In u ((e, c) :: h) & fst u = fst t.
    move=> H1 H2 t /H1[[E1 /H2 E2]|[u Hu Eu]]; [by left|right; exists u => //; by right].
  case: ins B Lift => B Lift.
  + have e1 : (e < 1)%CZ := B erefl (e, c) (or_introl erefl).
    have E : sub_x_go p Hp true ((e, c) :: h) = (e, c) :: sub_x_go p Hp true h.
      rewrite /=. case: Z.eqb_spec => // E. lia.
    have [N1 E1 B1] := IH true Nh (fun _ t Ht => B erefl t (or_intror Ht)). apply: (eq_ind_r (subok true ((e, c) :: h)) _ E). split.
    * apply: n_cons => // t /B1[[_ //]|[u /Hd Hu <-]]. lia.
    * by rewrite !T_cons E1 addrA.
    * move=> t [<-|Ht]; first by right; exists (e, c) => //; left. exact (Lift true _ B1 id t Ht).
  + case: (Z.lt_trichotomy e 1) => [L|[E|L]].
    * have E : sub_x_go p Hp false ((e, c) :: h) = (1%CZ, minus_one p Hp) :: (e, c) :: sub_x_go p Hp true h.
        rewrite /=. have -> : (e <? 1)%CZ = true by apply/Z.ltb_lt. rewrite /=. case: Z.eqb_spec => // E. lia.
      have [N1 E1 B1] := IH true Nh (fun _ t Ht => ltac:(have := Hd t Ht; lia)). apply: (eq_ind_r (subok false ((e, c) :: h)) _ E). split.
      -- apply: n_cons => //; [exact: m1_n0|move=> t [<-//|/B1[[_ //]|[u /Hd Hu <-]]]; lia|].
         apply: n_cons => // t /B1[[_ //]|[u /Hd Hu <-]]. lia.
      -- rewrite !T_cons E1 phi_m1 scaleN1r expr1 subr0. by rewrite addrC.
      -- move=> t [<-|[<-|Ht]]; [by left|by right; exists (e, c) => //; left|]. exact (Lift true _ B1 (fun _ => erefl) t Ht).
    * subst e. set k := csub K c (c1 K). have E : sub_x_go p Hp false ((1%CZ, c) :: h) = (if is0 K k then [::] else [:: (1%CZ, k)]) ++ sub_x_go p Hp true h by exact: erefl.
      have [N1 E1 B1] := IH true Nh (fun _ t Ht => ltac:(have := Hd t Ht; lia)). apply: (eq_ind_r (subok false ((1%CZ, c) :: h)) _ E).
      have Ek : T (if is0 K k then [::] else [:: (1%CZ, k)]) = phi c *: 'X - 'X.
        have P : phi k = phi c - 1 by exact: sub1_phi.
        have -> : phi c *: 'X - 'X = phi k *: ('X : {poly F}) by rewrite P scalerBl scale1r.
        case: (is0_spec K HK k) => Z0; first by rewrite T_nil Z0 phi_0 scale0r. by rewrite T_cons T_nil addr0 expr1.
      split.
      -- case: (is0_spec K HK k) => Z0; first exact: N1. apply: n_cons => // t /B1[[_ //]|[u /Hd Hu <-]]. lia.
      -- rewrite T_cat Ek E1 T_cons subr0 expr1. by rewrite addrAC.
      -- move=> t /List.in_app_iff[|Ht]; last exact (Lift true _ B1 (fun _ => erefl) t Ht). case: (is0 K k) => [[]|[<-|[]]]. by left.
    * have E : sub_x_go p Hp false ((e, c) :: h) = (e, c) :: sub_x_go p Hp false h.
        rewrite /=. have -> : (e <? 1)%CZ = false by apply/Z.ltb_ge; lia. rewrite /=. case: Z.eqb_spec => // E. lia.
      have [N1 E1 B1] := IH false Nh (fun E => ltac:(discriminate E)). apply: (eq_ind_r (subok false ((e, c) :: h)) _ E). split.
      -- apply: n_cons => // t /B1[[-> _]|[u /Hd Hu <-]]; lia.
      -- by rewrite !T_cons E1 addrA.
      -- move=> t [<-|Ht]; first by right; exists (e, c) => //; left. exact (Lift false _ B1 id t Ht).
Qed.
Lemma subtract_x_ok (h : zup) n : unorm h -> below n h -> (1 < n)%CZ -> [/\ unorm (subtract_x p Hp srt h), T (subtract_x p Hp srt h) = T h - 'X & below n (subtract_x p Hp srt h)].
Proof.
move=> N B n1. have [N1 E1 B1] := @sub_x_go_ok h false N (fun E => ltac:(discriminate E)).
rewrite /subtract_x (znorm_id N1). split=> // t /B1[[-> _]|[u /B Hu <-]] //.
Qed.
Definition so_ok (h l : zup) : Prop := [/\ unorm l, T l = T h - 1 & forall t, List.In t l -> exists2 u, List.In u h & fst u = fst t].
Lemma sub_one_go_ok (h : zup) : unorm h -> existsb (fun t => (fst t =? 0)%CZ) h = true -> so_ok h (sub_one_go p Hp h).
Proof.
elim: h => [|[e c] h IH] N // X.
have [/= He Hc] := n_in N (or_introl erefl). have Nh := n_tl N. have Hd t : List.In t h -> (0 <= fst t < e)%CZ := n_head N.
case: (Z.eq_dec e 0) => [E0|Ne].
- subst e. have h0 : h = [::] by case: (h) Hd => [|t l] // Hd; have := Hd t (or_introl erefl); lia.
  subst h. set k := csub K c (c1 K).
  have E : sub_one_go p Hp [:: (0%CZ, c)] = if is0 K k then [::] else [:: (0%CZ, k)].
    transitivity ((if is0 K k then [::] else [:: (0%CZ, k)]) ++ [::]); first exact: erefl. by rewrite cats0.
  apply: (eq_ind_r (so_ok [:: (0%CZ, c)]) _ E).
  have P : phi k = phi c - 1 by exact: sub1_phi.
  have Tk : T [:: (0%CZ, c)] - 1 = (phi k)%:P by rewrite T_cons T_nil addr0 expr0 P alg_polyC polyCB.
  case: (is0_spec K HK k) => Z0.
  + split; [exact: n_nil| |by []]. rewrite T_nil Tk Z0 phi_0. by rewrite polyC0.
  + split; [exact: n_one|by rewrite Tk T_cons T_nil addr0 expr0 alg_polyC|]. move=> t [<-|[]]. by exists (0%CZ, c) => //; left.
- have X' : existsb (fun t => (fst t =? 0)%CZ) h = true.
    move: X => /=. case: Z.eqb_spec => //.
  have E : sub_one_go p Hp ((e, c) :: h) = (e, c) :: sub_one_go p Hp h.
    rewrite /=. case: Z.eqb_spec => //.
  have [N1 E1 B1] := IH Nh X'. apply: (eq_ind_r (so_ok ((e, c) :: h)) _ E). split.
  + apply: n_cons => // t /B1[u /Hd Hu <-]. lia.
  + by rewrite !T_cons E1 addrA.
  + move=> t [<-|Ht]; first by exists (e, c) => //; left. have [u Hu Eu] := B1 t Ht. exists u => //. by right.
Qed.
Lemma app_one_ok (h : zup) : unorm h -> (forall t, List.In t h -> fst t <> 0%CZ) -> unorm (h ++ [:: (0%CZ, minus_one p Hp)]).
Proof.
elim: h => [|[e c] h IH] N H; first exact: n_one m1_n0.
have [/= He Hc] := n_in N (or_introl erefl). apply: n_cons => //; last by apply: IH; [exact: n_tl N|move=> t Ht; apply: H; right].
move=> t /List.in_app_iff[/(n_head N)|[<-|[]]] /=; first lia. have := H (e, c) (or_introl erefl). move=> /= X. lia.
Qed.
Lemma subtract_one_ok (h : zup) n : unorm h -> below n h -> (0 < n)%CZ -> [/\ unorm (subtract_one p Hp srt h), T (subtract_one p Hp srt h) = T h - 1 & below n (subtract_one p Hp srt h)].
Proof.
move=> N B n1. rewrite /subtract_one. case X : (existsb _ h).
- have [N1 E1 B1] := sub_one_go_ok N X. split=> // t /B1[u /B Hu <-] //.
- have X' t : List.In t h -> fst t <> 0%CZ.
    move=> Ht E. have : existsb (fun t => (fst t =? 0)%CZ) h = true by apply/existsb_exists; exists t; split=> //; apply/Z.eqb_eq. by rewrite X.
  have E : sub_one_go p Hp h = h.
    elim: (h) X' => [|[e c] l IH] X' //. have := X' (e, c) (or_introl erefl) => /= Ne. case: Z.eqb_spec => // _ /=. rewrite IH // => t Ht. apply: X'. by right.
  have N1 := app_one_ok N X'. rewrite E (znorm_id N1). split=> //.
  + by rewrite T_cat T_cons T_nil phi_m1 scaleN1r expr0 addr0.
  + move=> t /List.in_app_iff[/B|[<-|[]]] //.
Qed.

(** ** powers modulo a polynomial *)
Lemma mod_below fuel (f g r : zup) : unorm f -> unorm g -> g <> [::] -> upoly_mod p Hp fuel f g = Ok r -> below (udeg g) r.
Proof. by move=> Nf Ng Hg /(mod_ok Nf Ng Hg)[]. Qed.
Lemma cong_mul (m a b c d : {poly F}) : m %| a - b -> m %| c - d -> m %| a * c - b * d.
Proof.
move=> A B. have -> : a * c - b * d = (a - b) * c + b * (c - d) by rewrite mulrBl mulrBr addrA subrK.
by apply: dvdp_add; [exact: dvdp_mulr|exact: dvdp_mull].
Qed.
Lemma cong_trans (m a b c : {poly F}) : m %| a - b -> m %| b - c -> m %| a - c.
Proof. move=> A B. have -> : a - c = (a - b) + (b - c) by rewrite addrA subrK. by rewrite dvdp_add. Qed.
Lemma cong_exp (m a b : {poly F}) k : m %| a - b -> m %| a ^+ k - b ^+ k.
Proof. move=> A. by rewrite subrXX dvdp_mulr. Qed.
Lemma mulmod_ok fuel (a b g r : zup) : unorm a -> unorm b -> unorm g -> g <> [::] -> Prelude.obind (zmul p Hp a b) (fun r => upoly_mod p Hp fuel r g) = Ok r ->
  [/\ unorm r, T g %| T r - T a * T b & below (udeg g) r].
Proof.
move=> Na Nb Ng Hg. have [s [-> Ns <-]] := zmul_ok Na Nb. move=> /= /(mod_ok Ns Ng Hg)[Nr D B]. split=> //. by rewrite -opprB dvdpNr.
Qed.
Lemma powmod_loop_ok n (R b : zup) (e : Z) (g r : zup) : unorm R -> unorm b -> unorm g -> g <> [::] -> (0 <= e)%CZ -> below (udeg g) R ->
  powmod_loop p Hp n R b e g = Ok r -> [/\ unorm r, T g %| T r - T R * T b ^+ Z.to_nat e & below (udeg g) r].
Proof.
elim: n R b e => [|n IH] R b e NR Nb Ng Hg He BR //=.
case: Z.ltb_spec => [Lt|Ge]; last first.
  case=> <-. split=> //. have -> : e = 0%CZ by lia. by rewrite expr0 mulr1 subrr dvdp0.
set o := (if negb _ then _ else _). case Eo : o => [R'| | |] //=.
have HR : [/\ unorm R', T g %| T R' - T R * (if (Z.rem e 2 =? 0)%CZ then 1 else T b) & below (udeg g) R'].
  move: Eo. rewrite /o. case: Z.eqb_spec => _ /=.
  - case=> <-. split=> //. by rewrite mulr1 subrr dvdp0.
  - exact: mulmod_ok.
have [NR' DR BR'] := HR. set o2 := (if _ then _ else _). case Eo2 : o2 => [b'| | |] //=.
have [Q0 Q1] : (0 <= Z.quot e 2)%CZ /\ e = (2 * Z.quot e 2 + Z.rem e 2)%CZ by split; [apply: Z.quot_pos; lia|exact: Z.quot_rem'].
have R01 : (Z.rem e 2 = 0 \/ Z.rem e 2 = 1)%CZ by have := Z.rem_bound_pos e 2 He ltac:(lia); lia.
have Hb : unorm b' /\ T g %| T b' ^+ Z.to_nat (Z.quot e 2) - (T b * T b) ^+ Z.to_nat (Z.quot e 2).
  move: Eo2. rewrite /o2. case: Z.ltb_spec => L2.
  - move=> /(mulmod_ok Nb Nb Ng Hg)[N1 D1 _]. split=> //. exact: cong_exp.
  - case=> <-. split=> //. have -> : Z.quot e 2 = 0%CZ by lia. by rewrite !expr0 subrr dvdp0.
have [Nb' Db] := Hb. move=> /(IH _ _ _ NR' Nb' Ng Hg Q0 BR')[Nr Dr Br]. split=> //.
apply: cong_trans Dr _. apply: cong_trans (cong_mul DR Db) _.
have -> : T R * (if (Z.rem e 2 =? 0)%CZ then 1 else T b) * (T b * T b) ^+ Z.to_nat (Z.quot e 2) - T R * T b ^+ Z.to_nat e = 0; last by rewrite dvdp0.
apply/eqP. rewrite subr_eq0. apply/eqP. rewrite -mulrA. congr (_ * _). rewrite -expr2 -exprM.
case: R01 => R0; rewrite R0 /=.
- rewrite mul1r. congr (_ ^+ _). lia.
- rewrite -exprS. congr (_ ^+ _). lia.
Qed.
Lemma one_ok : unorm [:: (0%CZ, c1 K)] /\ T [:: (0%CZ, c1 K)] = 1.
Proof.
have H1 : c1 K <> c0 K by move=> E; have := phi_1; rewrite E phi_0 => /eqP; rewrite eq_sym oner_eq0.
split; first exact: n_one. rewrite T_cons T_nil phi_1 scale1r expr0. by rewrite addr0.
Qed.
Lemma x_ok : unorm [:: (1%CZ, c1 K)] /\ T [:: (1%CZ, c1 K)] = 'X.
Proof.
have H1 : c1 K <> c0 K by move=> E; have := phi_1; rewrite E phi_0 => /eqP; rewrite eq_sym oner_eq0.
split; first exact: n_one. rewrite T_cons T_nil phi_1 scale1r expr1. by rewrite addr0.
Qed.
Lemma powmod_ok n (b g r : zup) (e : Z) : unorm b -> unorm g -> (0 < udeg g)%CZ -> (0 <= e)%CZ -> powmod p Hp n b e g = Ok r ->
  [/\ unorm r, T g %| T r - T b ^+ Z.to_nat e & below (udeg g) r].
Proof.
move=> Nb Ng Dg He. have Hg : g <> [::] by move=> E; rewrite E in Dg.
have -> : powmod p Hp n b e g = Prelude.obind (upoly_mod p Hp n b g) (fun b => powmod_loop p Hp n [:: (0%CZ, c1 K)] b e g) by case: (g) Hg.
case Em : (upoly_mod p Hp n b g) => [b'| | |] //= E. have [Nb' Db Bb] := mod_ok Nb Ng Hg Em.
have [N1 T1] := one_ok. have B1 : below (udeg g) [:: (0%CZ, c1 K)] by move=> t [<-|[]].
have [Nr Dr Br] := powmod_loop_ok N1 Nb' Ng Hg He B1 E. split=> //. apply: cong_trans Dr _. rewrite T1 mul1r. apply: cong_exp. by rewrite -opprB dvdpNr.
Qed.
Lemma udeg_lts (a b : zup) : unorm a -> unorm b -> (size (T a) < size (T b))%N -> (udeg a <= udeg b)%CZ.
Proof. move=> Na Nb. rewrite (T_deg Na) (T_deg Nb). case: (size (T a)) (size (T b)) => [|x] [|y] //= /ltP; lia. Qed.
(** ** the squarefree factorization *)
Section Sqf.
Context (L : closedFieldType) (iota : {rmorphism F -> L}).
Let charp := char_q.
Definition SQ (s : list (zup * Z)) : seq ({poly F} * nat) := [seq (T t.1, Z.to_nat t.2) | t <- s].
Definition good (t : zup * Z) : Prop := [/\ unorm t.1, T t.1 \is monic, (0 < t.2)%CZ & (udeg t.1 < maxdeg)%CZ].
Lemma ext_deriv0 (f : zup) : unorm f -> u_derivative K f = [::] -> (T f)^`() = 0.
Proof. move=> N E. have [_ <-] := T_deriv N. by rewrite E T_nil. Qed.
Lemma pth_deg (f g : zup) : unorm f -> (udeg f < maxdeg)%CZ -> extract_pth_root p f = Ok g -> (udeg g < maxdeg)%CZ /\ g <> [::].
Proof.
case: f => [|[e c] f] N //= L1 [<-] /=. split=> //. have [/= He _] := n_in N (or_introl erefl). have p0 := p_pos.
have : (e / p <= e)%CZ by apply: Z.div_le_upper_bound => //; nia. lia.
Qed.
Lemma sq_loop_ok n (f : {poly F}) (w c : zup) (i : Z) res res' c' : (0 < i)%CZ -> unorm w -> unorm c -> (udeg w < maxdeg)%CZ -> (udeg c < maxdeg)%CZ ->
  sq_inv iota f (Z.to_nat i) (T w) (T c) -> sq_part iota f (Z.to_nat i) (T w) (T c) (SQ res) -> List.Forall good res ->
  sq_loop p Hp srt n w c i res = Ok (res', c') ->
  exists i' w', [/\ sq_inv iota f i' w' (T c'), sq_part iota f i' w' (T c') (SQ res'), size w' = 1%N & [/\ unorm c', (udeg c' < maxdeg)%CZ, T c' != 0 & List.Forall good res']].
Proof.
elim: n w c i res => [|n IH] w c i res i0 Nw Nc Dw Dc I P G //=.
have [w0 c0 _ _] := I. have Hw := ne_T w0. have Hc := ne_T c0.
case Cw : (nonconst p w); last first.
  case=> <- <-. exists (Z.to_nat i), (T w). split=> //. exact (size1 Nw Hw (negbT Cw)).
case Ey : (uzp_gcd p Hp n w c) => [y| | |] //=. have [Ny Gy Yy] := gcd_ok Nw Nc Dw Dc Ey. have Hy := Yy (or_introl Hw).
case Ez : (zdiv p Hp n w y) => [z| | |] //=.
have Dyw : T y %| T w by rewrite (eqp_dvdl _ Gy) dvdp_gcdl. have Dyc : T y %| T c by rewrite (eqp_dvdl _ Gy) dvdp_gcdr.
have [Nz Tz] := zdiv_ok Nw Ny Hy Dyw Ez. rewrite (znorm_id Nz).
have i0' : (0 < Z.to_nat i)%N by apply/ltP; lia.
have Ei : Z.to_nat (i + 1) = (Z.to_nat i).+1 by lia.
have Dy := udeg_dvdmax Nw Ny Hw Dyw Dw.
have Hz : z <> [::] by move=> E; move: w0; rewrite Tz E T_nil mul0r eqxx.
have Dz : (udeg z < maxdeg)%CZ by apply: (udeg_dvdmax Nw Nz Hw _ Dw); rewrite Tz dvdp_mulr.
set o := (if _ then _ else _). case Eo : o => [res1| | |] //=.
case Ec : (zdiv p Hp n c y) => [d| | |] //=. have [Nd Td] := zdiv_ok Nc Ny Hy Dyc Ec. rewrite (znorm_id Nd).
have Dd : (udeg d < maxdeg)%CZ by apply: (udeg_dvdmax Nc Nd Hc _ Dc); rewrite Td dvdp_mulr.
have [I' _] := sq_inv_step i0' I Gy Tz Td.
have [P1 G1] : sq_part iota f (Z.to_nat i).+1 (T y) (T d) (SQ res1) /\ List.Forall good res1.
  move: Eo. rewrite /o (nonconst_size Nz). case: ltnP => Sz.
  - case Em : (make_monic p Hp z) => [z'| | |] //= [<-]. have [Nz' Ez' Mz' Uz'] := monic_ok Nz Em. split.
    + have -> : SQ (res ++ [:: (z', i)]) = rcons (SQ res) (T z', Z.to_nat i) by rewrite /SQ map_cat cats1.
      apply: (sq_part_push i0' I Gy P Tz Td _ Ez'). by rewrite (eqp_size Ez').
    + apply/List.Forall_app. split=> //. constructor=> //. split=> //=. by rewrite Uz'.
  - case=> <-. split=> //. apply: (sq_part_skip i0' P Tz Td). apply/eqP. by rewrite eqn_leq Sz size_poly_gt0 (T_neq0 Nz Hz).
move: I' P1. rewrite -Ei => I' P1. apply: IH => //. lia.
Qed.
Lemma SQ_scale s : List.Forall good s -> SQ [seq (t.1, (t.2 * p)%CZ) | t <- s] = scale_exp (SQ s).
Proof.
elim: s => [|t s IH] G //=. rewrite IH; last exact: List.Forall_inv_tail G. congr ((_, _) :: _). rewrite /= card_p.
have [_ _ H _] := List.Forall_inv G. have := p_pos. nia.
Qed.
Lemma good_scale s : List.Forall good s -> List.Forall good [seq (t.1, (t.2 * p)%CZ) | t <- s].
Proof. elim=> [|t l [A B C D] _ IH]; constructor=> //. split=> //=. have := p_pos. nia. Qed.
Lemma squarefree_ok n (f : zup) s : unorm f -> (udeg f < maxdeg)%CZ -> squarefree p Hp srt n f = Ok s -> List.Forall good s /\ sqf_ok iota (T f) (SQ s).
Proof.
elim: n f s => [|n IH] f s // N D.
have Root (c : zup) r : unorm c -> (udeg c < maxdeg)%CZ -> (T c)^`() = 0 ->
  Prelude.obind (extract_pth_root p c) (fun g => Prelude.obind (make_monic p Hp g) (fun g => Prelude.obind (squarefree p Hp srt n g) (fun sub => Ok [seq (t.1, (t.2 * p)%CZ) | t <- sub]))) = Ok r ->
  exists sub g, [/\ r = [seq (t.1, (t.2 * p)%CZ) | t <- sub], g %= extract (T c), List.Forall good sub & sqf_ok iota g (SQ sub)].
  move=> Nc Dc D0. case E1 : (extract_pth_root p c) => [g| | |] //=. have [Ng Tg] := pth_ok Nc D0 E1. have [Dg Hg] := pth_deg Nc Dc E1.
  case E2 : (make_monic p Hp g) => [g'| | |] //=. have [Ng' Eg' _ Ug'] := monic_ok Ng E2.
  case E3 : (squarefree p Hp srt n g') => [sub| | |] //= [<-]. have [G S] := IH g' sub Ng' ltac:(by rewrite Ug') E3.
  exists sub, (T g'). split=> //. by rewrite -Tg.
case: (f =P [::]) => [->//|Hf].
have -> : squarefree p Hp srt n.+1 f = (let root (c : zup) := Prelude.obind (extract_pth_root p c) (fun g => Prelude.obind (make_monic p Hp g) (fun g => Prelude.obind (squarefree p Hp srt n g) (fun sub => Ok [seq (t.1, (t.2 * p)%CZ) | t <- sub]))) in
   match u_derivative K f with
   | [::] => root f
   | fd => Prelude.obind (uzp_gcd p Hp n f fd) (fun c => Prelude.obind (zdiv p Hp n f c) (fun w =>
       Prelude.obind (sq_loop p Hp srt n (znorm p Hp srt w) c 1 [::]) (fun '(res, c) => if nonconst p c then Prelude.obind (root c) (fun sub => Ok (res ++ sub)) else Ok res)))
   end) by case: (f) Hf.
cbv zeta. have f0 := T_neq0 N Hf. have [Nd Td] := T_deriv N. case Ed : (u_derivative K f) => [|t fd'].
- move=> /(Root f s N D (ext_deriv0 N Ed))[sub [g [-> Eg G S]]]. split; first exact: good_scale. rewrite SQ_scale //. exact: (sqf_pth charp f0 (ext_deriv0 N Ed) Eg S).
- rewrite -Ed. have Dd : (udeg (u_derivative K f) < maxdeg)%CZ.
    have : (udeg (u_derivative K f) <= udeg f)%CZ by apply: udeg_lts => //; rewrite Td; exact: lt_size_deriv. lia.
  have d0 : (T f)^`() != 0 by rewrite -Td; apply: T_neq0 => //; rewrite Ed.
  case Ec : (uzp_gcd p Hp n f (u_derivative K f)) => [c| | |] //=. have [Nc Gc Yc] := gcd_ok N Nd D Dd Ec. have Hc := Yc (or_introl Hf).
  case Ew : (zdiv p Hp n f c) => [w| | |] //=. have Dcf : T c %| T f by rewrite (eqp_dvdl _ Gc) dvdp_gcdl.
  have [Nw Tw] := zdiv_ok N Nc Hc Dcf Ew. rewrite (znorm_id Nw).
  case El : (sq_loop p Hp srt n w c 1 [::]) => [[res c']| | |] //=.
  rewrite Td in Gc. have I : sq_inv iota (T f) 1 (T w) (T c) := sq_inv_start charp iota f0 d0 Gc Tw.
  have P : sq_part iota (T f) 1 (T w) (T c) (SQ [::]) by split=> //; rewrite big_nil mul1r expr1 -Tw eqpxx.
  have Dw : (udeg w < maxdeg)%CZ by apply: (udeg_dvdmax N Nw Hf _ D); rewrite Tw dvdp_mulr.
  have Dc : (udeg c < maxdeg)%CZ by apply: (udeg_dvdmax N Nc Hf _ D).
  have i1 : (0 < 1)%CZ by [].
  have [i' [w' [I' P' Sw [Nc' Dc' c0' G']]]] := sq_loop_ok i1 Nw Nc Dw Dc I P (List.Forall_nil _) El.
  case Cc : (nonconst p c').
  + have [D0 _] := sq_inv_end charp I' Sw.
    case Er : (Prelude.obind (extract_pth_root p c') _) => [sub| | |] //= [<-].
    have [sub' [g [-> Eg G S]]] := Root c' sub Nc' Dc' D0 Er. split; first by apply/List.Forall_app; split=> //; exact: good_scale.
    have -> : SQ (res ++ [seq (t.1, (t.2 * p)%CZ) | t <- sub']) = SQ res ++ scale_exp (SQ sub') by rewrite -SQ_scale // /SQ -map_cat.
    exact: (sq_part_pth charp f0 I' P' Sw Eg S).
  + case=> <-. split=> //. apply: (sq_part_end P' Sw). exact (size1 Nc' (ne_T c0') (negbT Cc)).
Qed.
End Sqf.
Lemma h_sz (a b : nat) : (0 < a)%N -> (0 < b)%N -> (Z.of_nat b.-1 < Z.of_nat (a + b).-1.-1)%CZ -> (0 < Z.of_nat a.-1)%CZ.
Proof. clear. case: a b => [|[|a]] [|b] //= _ _; rewrite -?plusE /=; lia. Qed.
Lemma h_succ d : (0 < d -> 0 < d + 1)%CZ. Proof. clear. lia. Qed.
Lemma h_tosucc d : (0 < d)%CZ -> Z.to_nat (d + 1) = (Z.to_nat d).+1. Proof. clear. lia. Qed.
Lemma h_topos d : (0 < d)%CZ -> (0 < Z.to_nat d)%N. Proof. clear. move=> H. apply/ltP. lia. Qed.
Lemma h_pred (s : nat) m : (1 < s)%N -> (Z.of_nat s.-1 < m)%CZ -> (0 < Z.of_nat s.-1 < m)%CZ. Proof. clear. case: s => [|[|k]] //= _; lia. Qed.
(** ** the distinct-degree factorization *)
Definition dgood (t : zup * Z) : Prop :=
  [/\ unorm t.1, T t.1 \is monic, (0 < t.2)%CZ & mind (Z.to_nat t.2) (T t.1)] /\ (0 < udeg t.1 < maxdeg)%CZ /\
  (forall u : {poly F}, irreducible_poly u -> u %| T t.1 -> ((size u).-1 <= Z.to_nat t.2)%N).
Fixpoint incr (d : Z) (l : list (zup * Z)) : Prop := match l with [::] => True | t :: r => (d <= t.2)%CZ /\ incr (t.2 + 1) r end.
Lemma incr_le d l : incr (d + 1) l -> incr d l.
Proof. case: l => [|t l] //= [H I]. split=> //. clear - H. lia. Qed.
Lemma ddf_loop_ok n d (h fs : zup) res R : (0 < d)%CZ -> unorm h -> unorm fs -> fs <> [::] -> (udeg fs < maxdeg)%CZ ->
  separable_poly (T fs) -> mind (Z.to_nat d) (T fs) -> T fs %| T h - 'X^(#|[finFieldType of F]| ^ (Z.to_nat d).-1) -> ddf_loop p Hp srt n d h fs res = Ok R ->
  exists new, [/\ R = res ++ new, List.Forall dgood new, T fs %= \prod_(t <- new) T t.1 & incr d new].
Proof.
elim: n d h fs res => [|n IH] d h fs res d0 Nh Nf Hf Df S M Dh //=.
have f0 := T_neq0 Nf Hf.
case: Z.ltb_spec => Ld.
- change (udeg fs < 2 * d)%CZ in Ld. case C : (nonconst p fs).
  + case Em : (make_monic p Hp fs) => [g| | |] //= [<-]. have [Ng Eg Mg Ug] := monic_ok Nf Em.
    have Sf : (1 < size (T fs))%N by rewrite -nonconst_size // C.
    have Uf : (0 < udeg fs)%CZ by rewrite (T_deg Nf); move: Sf; case: (size _) => [|[|k]] //= _; lia.
    rewrite Ug. exists [:: (g, udeg fs)].
    have Irr0 : irreducible_poly (T fs).
      apply: (mind_irr2 Sf M). rewrite (udeg_size Nf Uf). apply/leP. rewrite -plusE. lia.
    split; [exact: erefl| |by rewrite big_seq1 eqp_sym| ]; last first.
      split=> //=. have := M _ (dvdpp _) Sf. rewrite (udeg_size Nf Uf) => /leP X. clear - X d0 Uf. lia.
    constructor=> //. split; last split=> /=; [|by rewrite Ug|]; last first.
      move=> u Iu. rewrite (eqp_dvdr _ Eg) => Du. have [_ X] := Irr0. have [Su _] := Iu. have Su' : size u != 1%N by rewrite neq_ltn Su orbT.
      rewrite (eqp_size (X _ Su' Du)) (udeg_size Nf Uf). exact: leqnn.
    split=> //.
    have Irr : irreducible_poly (T fs).
      apply: (mind_irr2 Sf M). rewrite (udeg_size Nf Uf). apply/leP. rewrite -plusE. lia.
    move=> u Du Su. have Du' : u %| T fs by rewrite -(eqp_dvdr _ Eg).
    have Eu : u %= T fs by have [_ X] := Irr; apply: X => //; rewrite neq_ltn Su orbT.
    rewrite (eqp_size Eu) (udeg_size Nf Uf). exact: leqnn.
  + case=> <-. exists [::]. split; [by rewrite cats0|exact: List.Forall_nil| |by []]. rewrite big_nil.
    have /eqP := size1 Nf Hf (negbT C). by rewrite size_poly_eq1.
- change (2 * d <= udeg fs)%CZ in Ld. have Uf : (0 < udeg fs)%CZ by lia.
  case Eh : (powmod p Hp n h p fs) => [h1| | |] //=. have [Nh1 Dh1 Bh1] := powmod_ok Nh Nf Uf (Z.lt_le_incl _ _ p_pos) Eh.
  have Bm : below maxdeg h1 by move=> t /Bh1; lia.
  have [Nx Tx Bx] := subtract_x_ok Nh1 Bm (erefl : (1 < maxdeg)%CZ).
  case Eg : (uzp_gcd p Hp n (subtract_x p Hp srt h1) fs) => [g| | |] //=.
  have [Ng Gg Yg] := gcd_ok Nx Nf (below_udeg Nx (erefl : (0 < maxdeg)%CZ) Bx) Df Eg. have Hg := Yg (or_intror Hf). rewrite Tx in Gg.
  have Dgf : T g %| T fs by rewrite (eqp_dvdl _ Gg) dvdp_gcdr.
  have d0' := h_topos d0.
  have Dp : T fs %| T h1 - 'X^(#|[finFieldType of F]| ^ Z.to_nat d).
    rewrite -(prednK d0'). apply: (ddf_pow char_q Dh). by rewrite card_p.
  have Ed := h_tosucc d0.
  case C : (nonconst p g).
  + case Em : (make_monic p Hp g) => [g1| | |] //=. have [Ng1 Eg1 Mg1 Ug1] := monic_ok Ng Em.
    case Ez : (zdiv p Hp n fs g1) => [fn| | |] //=.
    have Hg1 : g1 <> [::] by apply: ne_T; apply: monic_neq0.
    have Dg1 : T g1 %| T fs by rewrite (eqp_dvdl _ Eg1).
    have [Nfn Tfn] := zdiv_ok Nf Ng1 Hg1 Dg1 Ez. rewrite (znorm_id Nfn).
    have Hfn : fn <> [::] by move=> E; move: f0; rewrite Tfn E T_nil mul0r eqxx.
    have Dfn : T fn %| T fs by rewrite Tfn dvdp_mulr.
    case Eh2 : (upoly_mod p Hp n h1 fn) => [h2| | |] //=. have [Nh2 Dh2 _] := mod_ok Nh1 Nfn Hfn Eh2.
    have Mfn : mind (Z.to_nat (d + 1)) (T fn).
      rewrite Ed. have Gg1 := eqp_trans Eg1 Gg. exact (ddf_step S M d0' Dp Gg1 Tfn).
    have Sfn : separable_poly (T fn) by apply: dvdp_separable S.
    have Dp2 : T fn %| T h2 - 'X^(#|[finFieldType of F]| ^ (Z.to_nat (d + 1)).-1).
      rewrite Ed /=. apply: (cong_trans (b := T h1)); [by rewrite -opprB dvdpNr|exact: dvdp_trans Dfn Dp].
    have Dm := udeg_dvdmax Nf Nfn Hf Dfn Df.
    have d1 := h_succ d0.
    move=> /(IH _ _ _ _ d1 Nh2 Nfn Hfn Dm Sfn Mfn Dp2)[new [-> G E Inc]].
    exists ((g1, d) :: new). split; [by rewrite -catA|constructor; [|exact G]| |by split; [exact: Z.le_refl|]].
    * have Sg : (1 < size (T g))%N by rewrite -nonconst_size // C.
      split=> /=; [split=> //; exact: mind_dvd Dg1 M|]. rewrite Ug1. split.
        have := udeg_dvdmax Nf Ng Hf Dgf Df. rewrite (T_deg Ng). exact: h_pred.
      move=> u Iu Du. apply: (irr_fermat char_q Iu d0'). have Dug : u %| T g by rewrite -(eqp_dvdr _ Eg1).
      have D1 : u %| T h1 - 'X by apply: dvdp_trans Dug _; rewrite (eqp_dvdl _ Gg) dvdp_gcdl.
      have D2 : u %| T h1 - 'X^(#|[finFieldType of F]| ^ Z.to_nat d) := dvdp_trans (dvdp_trans Dug Dgf) Dp.
      have -> : 'X^(#|[finFieldType of F]| ^ Z.to_nat d) - 'X = (T h1 - 'X) - (T h1 - 'X^(#|[finFieldType of F]| ^ Z.to_nat d)) by rewrite opprB [RHS]addrC addrA subrK.
      exact: dvdp_sub.
    * rewrite big_cons /= Tfn mulrC. by rewrite eqp_mull.
  + have Sg := size1 Ng Hg (negbT C). have Efn : T fs = (T fs %/ T g) * T g by rewrite divpK.
    have Mfn : mind (Z.to_nat (d + 1)) (T fs).
      rewrite Ed. apply: mind_dvd (ddf_step S M d0' Dp Gg Efn).
      have /size_poly1P[a a0 Ea] : size (T g) == 1%N by rewrite Sg.
      by rewrite {1}Efn Ea mulrC mul_polyC dvdpZl.
    have d1 := h_succ d0.
    have Dp2 : T fs %| T h1 - 'X^(#|[finFieldType of F]| ^ (Z.to_nat (d + 1)).-1) by rewrite Ed.
    move=> /(IH _ _ _ _ d1 Nh1 Nf Hf Df S Mfn Dp2)[new [-> G E Inc]]. exists new. split=> //. exact: incr_le Inc.
Qed.
Lemma ddf_ok n (f : zup) R : unorm f -> (udeg f < maxdeg)%CZ -> separable_poly (T f) -> ddf p Hp srt n f = Ok R ->
  [/\ List.Forall dgood R, T f %= \prod_(t <- R) T t.1 & incr 1 R].
Proof.
move=> N D S. case: (f =P [::]) => [->//|Hf].
have -> : ddf p Hp srt n f = ddf_loop p Hp srt n 1 [:: (1%CZ, c1 K)] f [::] by case: (f) Hf.
have [Nx Tx] := x_ok. have d1 : (0 < 1)%CZ by []. have M : mind (Z.to_nat 1) (T f) by exact: mind1.
have Dx : T f %| T [:: (1%CZ, c1 K)] - 'X^(#|[finFieldType of F]| ^ (Z.to_nat 1).-1).
  rewrite Tx (_ : (Z.to_nat 1).-1 = 0%N) //. by rewrite expn0 expr1 subrr dvdp0.
by move=> /(ddf_loop_ok d1 Nx N Hf D S M Dx)[new [-> A B C]].
Qed.

(** ** the equal-degree factorization *)
Context (draw : nat -> Z) (Hdraw : forall k, (0 <= draw k < p)%CZ).
Lemma random_ok n k : unorm (random_poly p Hp draw n k) /\ forall t, List.In t (random_poly p Hp draw n k) -> (fst t < Z.of_nat n)%CZ.
Proof.
elim: n k => [|n IH] k; first by split=> //; exact: n_nil.
have [N B] := IH k.+1. set l := random_poly p Hp draw n k.+1 in N B.
have E : random_poly p Hp draw n.+1 k = (if (draw k =? 0)%CZ then [::] else [:: (Z.of_nat n, zpc_of p Hp (draw k))]) ++ l by exact: erefl.
rewrite E. case: Z.eqb_spec => Z0.
- by split=> // t /B; lia.
- split.
  + apply: n_cons => //; first lia. move=> X. apply: Z0. apply: psi_0; first exact: Hdraw. by rewrite -phi_of X phi_0.
  + move=> t [<-|/B] /=; lia.
Qed.
Lemma trace_loop_ok fuel n (g r f s : zup) : unorm g -> unorm r -> unorm f -> f <> [::] -> below (udeg f) g -> trace_loop p Hp fuel n g r f = Ok s ->
  unorm s /\ below (udeg f) s.
Proof.
move=> Ng Nr Nf Hf. elim: n g Ng => [|n IH] g Ng B /=; first by case=> <-.
have [g2 [-> Ng2 _]] := zmul_ok Ng Ng. rewrite /=.
have Na : unorm (p_add uniS K g2 r) := p_add_normal uniS uok usm K uniS_ok HK g2 r Ng2 Nr.
case Em : (upoly_mod p Hp fuel (p_add uniS K g2 r) f) => [g'| | |] //=. have [Ng' _ B'] := mod_ok Na Nf Hf Em. exact: IH.
Qed.
Lemma edf_try_ok fuel (r f g : zup) d : (0 < d)%CZ -> unorm r -> unorm f -> (0 < udeg f < maxdeg)%CZ -> edf_try p Hp srt fuel r f d = Ok g ->
  [/\ unorm g, T g %| T f & g <> [::]].
Proof.
move=> d0 Nr Nf [D0 D1]. have Hf : f <> [::] by move=> E; rewrite E in D0.
have Fin (s : zup) : unorm s -> below maxdeg s -> uzp_gcd p Hp fuel s f = Ok g -> [/\ unorm g, T g %| T f & g <> [::]].
  move=> Ns Bs E. have [Ng Gg Yg] := gcd_ok Ns Nf (below_udeg Ns (erefl : (0 < maxdeg)%CZ) Bs) D1 E. split=> //; last exact: (Yg (or_intror Hf)).
  by rewrite (eqp_dvdl _ Gg) dvdp_gcdr.
have Up (s : zup) : below (udeg f) s -> below maxdeg s by move=> B t /B; lia.
rewrite /edf_try. case: Z.eqb_spec => _.
- case Em : (upoly_mod p Hp fuel r f) => [s| | |] //=. have [Ns _ Bs] := mod_ok Nr Nf Hf Em.
  case Et : (trace_loop p Hp fuel (Z.to_nat (d - 1)) s r f) => [s'| | |] //=. have [Ns' Bs'] := trace_loop_ok Ns Nr Nf Hf Bs Et. apply: Fin => //. exact: Up.
- have He : (0 <= Z.quot (p ^ d - 1) 2)%CZ by apply: Z.quot_pos; [have := Z.pow_pos_nonneg p d p_pos; lia|lia].
  case Em : (powmod p Hp fuel r (Z.quot (p ^ d - 1) 2) f) => [s| | |] //=. have [Ns _ Bs] := powmod_ok Nr Nf D0 He Em.
  have [Ns1 _ Bs1] := subtract_one_ok Ns (Up _ Bs) (erefl : (0 < maxdeg)%CZ). exact: Fin.
Qed.
Definition irr (h : zup) : Prop := [/\ unorm h, T h \is monic & irreducible_poly (T h)].
Lemma edf_ok n (f : zup) d k l k' : (0 < d)%CZ -> unorm f -> (0 < udeg f < maxdeg)%CZ -> mind (Z.to_nat d) (T f) -> edf p Hp srt draw n f d k = Ok (l, k') ->
  List.Forall irr l /\ T f %= \prod_(h <- l) T h.
Proof.
elim: n f k l k' => [|n IH] f k l k' d0 Nf Uf M //=. have [U0 U1] := Uf.
have Hf : f <> [::] by move=> E; rewrite E in U0.
case: Z.eqb_spec => Ed.
- case Em : (make_monic p Hp f) => [g| | |] //= [<- _]. have [Ng Eg Mg Ug] := monic_ok Nf Em. split; last by rewrite big_seq1 eqp_sym.
  constructor=> //. split=> //. apply: (mind_irr (d := Z.to_nat d)); [exact: monic_neq0|by apply/ltP; lia|apply: mind_dvd M; by rewrite (eqp_dvdl _ Eg)|].
  rewrite (eqp_size Eg) (udeg_size Nf U0). by rewrite Ed.
- have -> : (udeg f <=? 0)%CZ = false by apply/Z.leb_gt.
  set r := random_poly p Hp draw (Z.to_nat (udeg f)) k. set k1 := (k + _)%coq_nat.
  have [Nr _] := random_ok (Z.to_nat (udeg f)) k. rewrite -/r in Nr.
  case: (r) Nr => [|t r'] Nr; first exact: IH.
  case Et : (edf_try p Hp srt n (t :: r') f d) => [g| | |] //=. have [Ng Dg Hg] := edf_try_ok d0 Nr Nf Uf Et.
  case: Z.ltb_spec => L1 /=; last exact: IH. case: Z.ltb_spec => L2 /=; last exact: IH.
  case Ez : (zdiv p Hp n f g) => [h| | |] //=. have [Nh Th] := zdiv_ok Nf Ng Hg Dg Ez.
  have f0 := T_neq0 Nf Hf. have Hh : h <> [::] by move=> E; move: f0; rewrite Th E T_nil mul0r eqxx.
  have Dh : T h %| T f by rewrite Th dvdp_mulr.
  have Uh : (0 < udeg h)%CZ.
    have h0 := T_neq0 Nh Hh. have g0 := T_neq0 Ng Hg. move: L2. rewrite (T_deg Nf) (T_deg Ng) (T_deg Nh) Th size_mul //.
    apply: h_sz; by rewrite size_poly_gt0.
  case Em1 : (make_monic p Hp g) => [g1| | |] //=. have [Ng1 Eg1 Mg1 Ug1] := monic_ok Ng Em1.
  rewrite (znorm_id Nh). case Em2 : (make_monic p Hp h) => [h1| | |] //=. have [Nh1 Eh1 Mh1 Uh1] := monic_ok Nh Em2.
  case E1 : (edf p Hp srt draw n g1 d k1) => [[l1 k2]| | |] //=. case E2 : (edf p Hp srt draw n h1 d k2) => [[l2 k3]| | |] //= [<- _].
  have Dg1 : T g1 %| T f by rewrite (eqp_dvdl _ Eg1). have Dh1 : T h1 %| T f by rewrite (eqp_dvdl _ Eh1).
  have V1 : (0 < udeg g1 < maxdeg)%CZ by rewrite Ug1; split; [exact: L1|exact: Z.lt_trans L2 U1].
  have V2 : (0 < udeg h1 < maxdeg)%CZ by rewrite Uh1; split; [exact: Uh|exact: (udeg_dvdmax Nf Nh Hf Dh U1)].
  have [A1 B1] := IH g1 k1 l1 k2 d0 Ng1 V1 (mind_dvd Dg1 M) E1.
  have [A2 B2] := IH h1 k2 l2 k3 d0 Nh1 V2 (mind_dvd Dh1 M) E2.
  split; first by apply/List.Forall_app.
  rewrite big_cat /= Th mulrC. apply: (eqp_trans (y := T g1 * T h1)).
  + apply: (eqp_trans (y := T g1 * T h)); [by apply: eqp_mulr; rewrite eqp_sym|by apply: eqp_mull; rewrite eqp_sym].
  + apply: (eqp_trans (y := (\prod_(h <- l1) T h) * T h1)); [exact: eqp_mulr|exact: eqp_mull].
Qed.
(** ** putting the parts together *)
Definition PT (l : list (zup * Z)) : {poly F} := \prod_(t <- l) T t.1 ^+ Z.to_nat t.2.
Lemma PT_cat l1 l2 : PT (l1 ++ l2) = PT l1 * PT l2. Proof. exact: big_cat. Qed.
Lemma edf_all_ok n l e k R k' : List.Forall dgood l -> edf_all p Hp srt draw n l e k = Ok (R, k') ->
  List.Forall (fun t => irr t.1 /\ t.2 = e) R /\ \prod_(t <- l) T t.1 %= \prod_(t <- R) T t.1.
Proof.
elim: l k R k' => [|[g d] l IH] k R k' G /=; first by case=> <- _; rewrite !big_nil eqpxx.
have [[Ng Mg d0 M] [U _]] := List.Forall_inv G. have G' := List.Forall_inv_tail G. rewrite /= in Ng Mg d0 M U.
case E1 : (edf p Hp srt draw n g d k) => [[hs k1]| | |] //=. case E2 : (edf_all p Hp srt draw n l e k1) => [[rest k2]| | |] //= [<- _].
have [A1 B1] := edf_ok d0 Ng U M E1. have [A2 B2] := IH _ _ _ G' E2. split.
- apply/List.Forall_app. split=> //. apply/List.Forall_map. apply: List.Forall_impl A1 => h Hh. by split.
- rewrite big_cons big_cat /= big_map /=. apply: (eqp_trans (y := (\prod_(h <- hs) T h) * \prod_(t <- l) T t.1)); [exact: eqp_mulr|exact: eqp_mull].
Qed.
Lemma sep_uniq (xs : seq {poly F}) : separable_poly (\prod_(x <- xs) x) -> (forall x, x \in xs -> (1 < size x)%N) -> uniq xs.
Proof.
elim: xs => [|x xs IH] //=. rewrite big_cons separable_mul => /and3P[_ S C] H.
rewrite IH // ?andbT; last by move=> y Hy; apply: H; rewrite inE Hy orbT.
apply/negP => I. have D : x %| \prod_(y <- xs) y by rewrite (big_rem x I) /= dvdp_mulr.
have : size x == 1%N. by have := coprimep_dvdl D C; rewrite coprimepp.
have := H x (mem_head _ _). by case: (size x) => [|[|k]].
Qed.
Definition TS (R : list (zup * Z)) : seq {poly F} := [seq T t.1 | t <- R].
Lemma TS_in R x : x \in TS R -> exists2 t, List.In t R & x = T t.1.
Proof. elim: R => [|t R IH] //=. rewrite inE => /orP[/eqP->|/IH[u Hu ->]]; [by exists t => //; left|by exists u => //; right]. Qed.
Lemma in_SQ l (t : zup * Z) : List.In t l -> (T t.1, Z.to_nat t.2) \in SQ l.
Proof. elim: l => [|u l IH] //= [->|/IH H]; by rewrite inE ?eqxx // H orbT. Qed.
Definition fgood (t : zup * Z) : Prop := irr t.1 /\ (0 < t.2)%CZ.
Lemma irr_size h : irr h -> (1 < size (T h))%N. Proof. by case=> _ _ []. Qed.
Lemma dvd_TS (R : list (zup * Z)) t : List.In t R -> T t.1 %| \prod_(t <- R) T t.1.
Proof. elim: R => [|u R IH] //= [->|/IH H]; rewrite big_cons; [exact: dvdp_mulIl|exact: dvdp_mull]. Qed.
Lemma factor_all_ok n l k R : List.Forall good l -> uniq [seq Z.to_nat t.2 | t <- l] ->
  (forall u, List.In u l -> separable_poly (T u.1)) ->
  (forall u v (x : {poly F}), List.In u l -> List.In v l -> (1 < size x)%N -> x %| T u.1 -> x %| T v.1 -> Z.to_nat u.2 = Z.to_nat v.2) ->
  factor_all p Hp srt draw n l k = Ok R ->
  [/\ List.Forall fgood R, PT l %= PT R, uniq (TS R) & forall t, List.In t R -> exists2 u, List.In u l & T t.1 %| T u.1].
Proof.
elim: l k R => [|[s e] l IH] k R G U S C /=; first by case=> <-; split=> //; rewrite /PT !big_nil eqpxx.
have [/= Ns Ms e0 Ds] := List.Forall_inv G. have G' := List.Forall_inv_tail G.
case E1 : (ddf p Hp srt n s) => [dd| | |] //=. have Ss := S _ (or_introl erefl). rewrite /= in Ss.
have [A1 B1 _] := ddf_ok Ns Ds Ss E1.
case E2 : (edf_all p Hp srt draw n dd e k) => [[hs k1]| | |] //=. have [A2 B2] := edf_all_ok A1 E2.
case E3 : (factor_all p Hp srt draw n l k1) => [rest| | |] //= [<-].
move: U => /= /andP[U0 U1].
have [A3 B3 C3 D3] := IH _ _ G' U1 (fun u Hu => S u (or_intror Hu)) (fun u v x Hu Hv => C u v x (or_intror Hu) (or_intror Hv)) E3.
have B12 : T s %= \prod_(t <- hs) T t.1 := eqp_trans B1 B2.
have In2 t : List.In t hs -> T t.1 %| T s by move=> Ht; rewrite (eqp_dvdr _ B12); exact: dvd_TS.
have F2 t : List.In t hs -> irr t.1 /\ t.2 = e by exact: ((List.Forall_forall _ _).1 A2 t).
have Sz x : x \in TS hs -> (1 < size x)%N by move=> /TS_in[t /F2[H _] ->]; exact: irr_size.
split.
- apply/List.Forall_app. split=> //. apply: List.Forall_impl A2 => t [H Et]. split=> //. by rewrite Et.
- rewrite PT_cat. have -> : PT ((s, e) :: l) = T s ^+ Z.to_nat e * PT l by rewrite /PT big_cons.
  have -> : PT hs = (\prod_(t <- hs) T t.1) ^+ Z.to_nat e.
    elim: (hs) F2 => [|t hs' IHh] F2; first by rewrite /PT !big_nil expr1n.
    rewrite /PT big_cons big_cons exprMn -/(PT hs') IHh; last by move=> u Hu; apply: F2; right.
    by have [_ ->] := F2 t (or_introl erefl).
  apply: (eqp_trans (y := (\prod_(t <- hs) T t.1) ^+ Z.to_nat e * PT l)); [apply: eqp_mulr; exact: eqp_exp|exact: eqp_mull].
- rewrite /TS map_cat cat_uniq -/(TS hs) -/(TS rest) C3 andbT. apply/andP. split.
  + apply: sep_uniq; last exact: Sz. rewrite big_map -(eqp_separable B12). exact: Ss.
  + apply/hasPn => x Hx. apply/negP => Hx'. have Sx := Sz x Hx'. move: Hx Hx' => /TS_in[t /D3[u Hu Du] Et] /TS_in[t' /In2 Dt Et'].
    have := C (s, e) u x (or_introl erefl) (or_intror Hu) Sx ltac:(by rewrite Et') ltac:(by rewrite Et) => /= Ee.
    move/negP: U0; apply. rewrite Ee. elim: (l) Hu => [|v l' IHl] //= [->|/IHl H]; by rewrite inE ?eqxx // H orbT.
- move=> t /List.in_app_iff[/In2 D|/D3[u Hu Du]]; [by exists (s, e) => //; left|by exists u => //; right].
Qed.
Lemma perm_SQ l1 l2 : Permutation.Permutation l1 l2 -> perm_eq (SQ l1) (SQ l2).
Proof.
elim=> [|t a b _ IH|t u a|a b c _ IH1 _ IH2] //=; first by rewrite perm_cons.
- apply/permPl. exact: (perm_catCA [:: _] [:: _] _).
- exact: perm_trans IH1 IH2.
Qed.
Lemma PT_SQ l : PT l = \prod_(t <- SQ l) t.1 ^+ t.2. Proof. by rewrite /SQ big_map. Qed.
Lemma TS_SQ l : TS l = map fst (SQ l). Proof. by rewrite /SQ /TS -map_comp. Qed.
Lemma PT_monic l : List.Forall fgood l -> PT l \is monic.
Proof.
elim=> [|t a [[_ M _] _] _ IH]; first by rewrite /PT big_nil monic1.
rewrite /PT big_cons. rewrite monicMl; [exact: IH|exact: monic_exp].
Qed.
Context (rsort : list (zup * Z) -> list (zup * Z)) (Hrs : forall l, Permutation.Permutation (rsort l) l).
Lemma factor_T n (f : zup) c R : unorm f -> (udeg f < maxdeg)%CZ -> factor_zp p Hp srt rsort draw n f = Ok (c, R) ->
  [/\ T f = phi c *: PT R, List.Forall fgood R, uniq (TS R) & exists e r, f = (e, c) :: r].
Proof.
case: f => [|[e a] r] N D //. have [/= He Ha] := n_in N (or_introl erefl).
have FE : factor_zp p Hp srt rsort draw n ((e, a) :: r) = (if (e <=? 0)%CZ then Ok (a, [::]) else
  Prelude.obind (make_monic p Hp ((e, a) :: r)) (fun f => Prelude.obind (squarefree p Hp srt n f) (fun sqf => Prelude.obind (factor_all p Hp srt draw n sqf 0) (fun l => Ok (a, rsort l))))) by exact: erefl.
move=> H0. have := eq_trans (esym FE) H0. clear FE H0.
case: Z.leb_spec => Le.
- case=> <- <-. have e0 : e = 0%CZ by lia. subst e. have r0 : r = [::].
    case: (r) N => [|t r'] N //. have := n_head N (or_introl erefl). lia.
  subst r. split=> //; last by exists 0%CZ, [::]. rewrite /PT big_nil T_cons T_nil expr0. by rewrite addr0.
- case E1 : (make_monic p Hp _) => [g| | |] //=. have Hf : (e, a) :: r <> [::] by [].
  have Eg := monic_eq N Hf E1. have [Ng _ Mg Ug] := monic_ok N E1. rewrite T_lead // in Eg.
  case E2 : (squarefree p Hp srt n g) => [s| | |] //=. case E3 : (factor_all p Hp srt draw n s 0) => [l| | |] //= [<- <-].
  have [L [iota _]] := countable_algebraic_closure [countFieldType of F].
  have [G Sq] := squarefree_ok iota Ng ltac:(by rewrite Ug) E2.
  have Us : uniq [seq Z.to_nat t.2 | t <- s] by have [_ + _] := Sq; rewrite /SQ -map_comp.
  have [A B C _] := factor_all_ok G Us (fun u Hu => sqf_sep char_q Sq (in_SQ Hu)) (fun u v x Hu Hv Sx Du Dv => sqf_cop Sq (in_SQ Hu) (in_SQ Hv) Sx Du Dv) E3.
  have P := perm_SQ (Hrs l). have EP : PT (rsort l) = PT l by rewrite !PT_SQ; exact: perm_big.
  have Es : T g = PT l.
    have [Es _ _] := Sq. rewrite -PT_SQ in Es. have Ex := eqp_trans Es B. apply/eqP. by rewrite -eqp_monic // PT_monic.
  split.
  + by rewrite EP -Es.
  + exact: (Permutation.Permutation_Forall (Permutation.Permutation_sym (Hrs l)) A).
  + rewrite TS_SQ (perm_uniq (perm_map fst P)) -TS_SQ. exact: C.
  + by exists e, r.
Qed.
End B.
