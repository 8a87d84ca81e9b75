(** * C49: factorization of a univariate polynomial modulo a prime. *)
From Coq Require Znumtheory Permutation Sorting.Sorted.
From Verif Require Import Prelude Coef Spec SpecProofs SpecOps SpecOpsProofs GcdDom GcdPoly GcdMath GcdProofs OrderSpec PairVec PairVecProofs MonoStruct MonoStructProofs Heap Poly PolyMulProofs Div PolyDivProofs
  PolyOps ConvertProofs Zp NumSpec ZpProofs GcdHom UGcd UGcdBase UGcdMod FactorZp.
From mathcomp Require Import all_ssreflect all_algebra all_field ssrZ.
From Verif Require Import FzpMath FactorZpBase.
Import GRing.Theory.
Set Implicit Arguments.
Unset Strict Implicit.
Local Open Scope ring_scope.
Delimit Scope Z_scope with CZ.

(** ** Specification.  A polynomial over Z/p is a list of (exponent, coefficient), highest exponent first, no zero
    coefficient; [graw usm f] is the polynomial it denotes. *)
Section Spec.
Context (p : Z) (Hp : modulus p).
Notation zup := (list (Z * zpc p)).
Definition unormal (f : zup) : Prop := normal uok (m_gt uniS) (Zpc p Hp) f.
(** the product of the h^e *)
Fixpoint zproduct (l : list (zup * Z)) : rpoly (zpc p) :=
  match l with [::] => rconst (c1 (Zpc p Hp)) | (h, e) :: l => rmul (Zpc p Hp) (rpow (Zpc p Hp) (graw usm h) (Z.to_nat e)) (zproduct l) end.
Definition monic_poly (h : zup) : Prop := match h with [::] => False | t :: _ => snd t = c1 (Zpc p Hp) end.
(** h has positive degree, and one of the two factors of every product equal to h is a constant *)
Definition irreducible_mod (h : zup) : Prop :=
  (0 < udeg h)%CZ /\ forall A B, unormal A -> unormal B -> req (Zpc p Hp) (graw usm h) (rmul (Zpc p Hp) (graw usm A) (graw usm B)) -> udeg A = 0%CZ \/ udeg B = 0%CZ.
Definition by_degree (a b : zup * Z) : Prop := (udeg (fst a) <= udeg (fst b))%CZ.
(** std::sort with the degree comparison: any sorted permutation *)
Definition sorts_by_degree (rsort : list (zup * Z) -> list (zup * Z)) : Prop :=
  forall l, Permutation.Permutation (rsort l) l /\ Sorted.StronglySorted by_degree (rsort l).
(** the random numbers are residues *)
Definition draws (draw : nat -> Z) : Prop := forall k, (0 <= draw k < p)%CZ.
End Spec.

Lemma h_prod (a b : nat) : (0 < a)%N -> (0 < b)%N -> a = (a + b).-1 -> Z.of_nat b.-1 = 0%CZ.
Proof. case: a b => [|a] [|b] // _ _. rewrite addSn addnS -plusE /=. lia. Qed.

Lemma h_pos (a : nat) : (1 < a)%N -> (0 < Z.of_nat a.-1)%CZ.
Proof. case: a => [|[|k]] //= _; lia. Qed.

Section Main.
Context (p : Z) (Hp : modulus p) (Pr : Znumtheory.prime p).
Notation K := (Zpc p Hp).
Notation zup := (list (Z * zpc p)).
Let HF : field_ok K := Zpc_field p Hp Pr.
Let HD : domain_ok K := field_domain K HF.
Let HK : ring_ok K := domain_ring K HD.
Context (srt : zup -> zup) (rsort : list (zup * Z) -> list (zup * Z)) (draw : nat -> Z).

Lemma one_req : req K (graw usm [:: (0%CZ, c1 K)]) (rconst (c1 K)).
Proof. apply: (req_single K) => // v. rewrite exp_usm. by case: N.eqb_spec. Qed.
Lemma norm_product (l : list (zup * Z)) : List.Forall (fun t => unormal Hp t.1) l -> exists r, unormal Hp r /\ req K (graw usm r) (zproduct Hp l).
Proof.
elim: l => [|[h e] l IH] H.
- have [N _] := one_ok Hp Pr. exists [:: (0%CZ, c1 K)]. split; [exact: N|exact: one_req].
- have [r [Nr Er]] := IH (List.Forall_inv_tail H). have Nh := List.Forall_inv H. rewrite /= in Nh.
  have [s [Ns Es]] : exists s, unormal Hp s /\ req K (graw usm s) (rpow K (graw usm h) (Z.to_nat e)).
    elim: (Z.to_nat e) => [|n [s [Ns Es]]].
    + have [N _] := one_ok Hp Pr. exists [:: (0%CZ, c1 K)]. split; [exact: N|exact: one_req].
    + have [u [_ [Nu Eu]]] := p_mul_ok uniS uok usm K uniS_ok HK HD no_compress h s (conj I I) Nh Ns. exists u. split=> //.
      move=> m. rewrite (Eu m). exact: (rmul_proper K HK _ _ (fun _ => erefl) _ _ Es m).
  have [u [_ [Nu Eu]]] := p_mul_ok uniS uok usm K uniS_ok HK HD no_compress s r (conj I I) Ns Nr. exists u. split=> //.
  move=> m. rewrite (Eu m). exact: (rmul_proper K HK _ _ Es _ _ Er m).
Qed.
Lemma toF_product (l : list (zup * Z)) : toF (zproduct Hp l) = PT l.
Proof.
elim: l => [|[h e] l IH]; first by rewrite /PT big_nil /= toF_const phi_1.
by rewrite /PT big_cons /= toF_mul // toF_pow // IH.
Qed.
Lemma irr_spec (h : zup) : irr Hp h -> monic_poly Hp h /\ irreducible_mod Hp h.
Proof.
case=> N M [S I]. have D := T_deg Pr N. split; [|split].
- case: h N M S {I D} => [|[e c] h] N M S; first by rewrite T_nil size_poly0 in S.
  rewrite /=. apply: (phi_inj Hp Pr). rewrite phi_1 //. move: M. by rewrite monicE (T_lead Pr N) => /eqP.
- rewrite D. exact: h_pos.
- move=> A B NA NB E. have ET : T h = T A * T B by rewrite /T (toF_req Pr E) toF_mul.
  rewrite (T_deg Pr NA) (T_deg Pr NB). case: (eqVneq (size (T A)) 1%N) => [->|SA]; first by left.
  right. have DA : T A %| T h by rewrite ET dvdp_mulr.
  have [_ X] := conj S I. have /eqp_size := X _ SA DA. have h0 : T h != 0 by rewrite -size_poly_gt0 ltnW.
  move: h0. rewrite ET mulf_eq0 negb_or => /andP[A0 B0]. rewrite size_mul //.
  move: A0 B0. rewrite -!size_poly_gt0. exact: h_prod.
Qed.
(** C49.  If the factorization answers, the answer is the leading coefficient of f and a list of pairwise different monic
    irreducible polynomials with positive exponents, sorted by degree, and f is their product: the factorization of f
    over Z/p.  The random numbers influence neither this nor anything else but the number of rounds. *)
Theorem C49_factorization : forall fuel f c fs, sorts_by_degree rsort -> draws p draw -> unormal Hp f -> f <> [::] -> (udeg f < maxdeg)%CZ ->
  factor_zp p Hp srt rsort draw fuel f = Ok (c, fs) ->
  req K (graw usm f) (rmul K (rconst c) (zproduct Hp fs)) /\
  List.Forall (fun t => [/\ unormal Hp (fst t), monic_poly Hp (fst t), irreducible_mod Hp (fst t) & (0 < snd t)%CZ]) fs /\
  List.NoDup (map fst fs) /\ Sorted.StronglySorted (@by_degree p) fs.
Proof.
move=> fuel f c fs Hs Hd N Hf D E.
have [ET A U [e [r Er]]] := factor_T Pr Hd (fun l => (Hs l).1) N D E.
have A' : List.Forall (fun t => unormal Hp t.1) fs by apply: List.Forall_impl A => t [[H _ _] _].
split; [|split; [|split]].
- have [r' [Nr' Er']] := norm_product A'. 
  have Tr' : T r' = PT fs by rewrite -toF_product; exact: (toF_req Pr Er').
  have Tr : T f = T [:: (0%CZ, c)] * T r' by rewrite ET T_cons T_nil addr0 expr0 alg_polyC mul_polyC Tr'.
  have Hc : c <> c0 K. { move: N. rewrite Er => N. by have [_ H] := n_in N (or_introl erefl). }
  have Q := T_mul_req Pr N (n_one (Z.le_refl 0) Hc) Nr' Tr.
  move=> m. rewrite (Q m). apply: (rmul_proper K HK) => //. apply: (req_single K) => // v. rewrite exp_usm. by case: N.eqb_spec.
- apply: List.Forall_impl A => t [H0 H1]. have [M I] := irr_spec H0. have [X _ _] := H0. by split.
- elim: (fs) U => [|t l IH] /=; first by constructor.
  move=> /andP[X Y]. constructor; last exact: IH. move=> Hin. move/negP: X; apply.
  have [u [Eu Hu]] := (List.in_map_iff _ _ _).1 Hin. rewrite -Eu. elim: (l) Hu => [|v l' IHl] //= [->|/IHl H]; by rewrite inE ?eqxx // H orbT.
- move: E. case: (f) => [|[e' a] r'] //. rewrite /factor_zp. case: (fst _ <=? 0)%CZ; first by case=> _ <-; constructor.
  case: (make_monic _ _ _) => //= g. case: (squarefree _ _ _ _ _) => //= s. case: (factor_all _ _ _ _ _ _ _) => //= l [_ <-]. exact: (Hs l).2.
Qed.
End Main.
Print Assumptions C49_factorization.

(** ** The hypotheses are met *)
Definition m3 : modulus 3. Proof. split; [discriminate|reflexivity]. Defined.
Definition m2 : modulus 2. Proof. split; [discriminate|reflexivity]. Defined.
Definition of_list (p : Z) (Hp : modulus p) (l : list (Z * Z)) : list (Z * zpc p) := map (fun t => (fst t, zpc_of p Hp (snd t))) l.
Definition to_list (p : Z) (l : list (Z * zpc p)) : list (Z * Z) := map (fun t => (fst t, proj1_sig (snd t))) l.
Fixpoint ins_degree (p : Z) (t : list (Z * zpc p) * Z) (l : list (list (Z * zpc p) * Z)) : list (list (Z * zpc p) * Z) :=
  match l with [::] => [:: t] | u :: r => if (udeg (fst t) <=? udeg (fst u))%CZ then t :: l else u :: ins_degree t r end.
Definition sort_degree (p : Z) (l : list (list (Z * zpc p) * Z)) := fold_right (@ins_degree p) [::] l.
Lemma sort_degree_ok p : sorts_by_degree (@sort_degree p).
Proof.
have PI t (l : list (list (Z * zpc p) * Z)) : Permutation.Permutation (ins_degree t l) (t :: l).
  elim: l => [|u l IH] /=; first exact: Permutation.Permutation_refl. case: (_ <=? _)%CZ; first exact: Permutation.Permutation_refl.
  apply: Permutation.perm_trans (Permutation.perm_swap _ _ _). exact: Permutation.perm_skip.
move=> l. split.
- elim: l => [|t l IH] /=; first exact: Permutation.perm_nil. apply: Permutation.perm_trans (PI _ _) _. exact: Permutation.perm_skip.
- elim: l => [|t l IH] /=; first by constructor. move: (sort_degree l) IH => s. elim: s => [|u s IHs] H /=; first by repeat constructor.
  case: Z.leb_spec => Le.
  + constructor=> //. constructor=> //. have [_ X] := Sorted.StronglySorted_inv H. apply: List.Forall_impl X => v. rewrite /by_degree. lia.
  + have [H1 X] := Sorted.StronglySorted_inv H. constructor; first exact: IHs.
    apply/List.Forall_forall => v Hv. have := Permutation.Permutation_in v (PI t s) Hv. case=> [<-|Hv']; first by rewrite /by_degree; lia.
    exact: ((List.Forall_forall _ _).1 X v Hv').
Qed.
Definition ex_draw3 (k : nat) : Z := ((Z.of_nat k * Z.of_nat k + Z.of_nat k / 2) mod 3)%CZ.
Definition ex_draw2 (k : nat) : Z := ((1103515245 * Z.of_nat k + 12345) / 65536 mod 2)%CZ.
Definition show (p : Z) (o : outcome (zpc p * list (list (Z * zpc p) * Z))) :=
  match o with Ok (c, l) => Ok (proj1_sig c, map (fun t => (to_list (fst t), snd t)) l) | Throw => Throw | UB => UB | OutOfFuel => OutOfFuel end.
(** 2 (x+1)^3 (x^2+1) (x^2+x+2) modulo 3 *)
Definition ex_f3 : list (Z * Z) := [:: (7, 2); (6, 2); (4, 1); (1, 2); (0, 1)]%CZ.
(** (x+1)^2 (x^3+x+1) (x^3+x^2+1) modulo 2 *)
Definition ex_f2 : list (Z * Z) := [:: (8, 1); (7, 1); (1, 1); (0, 1)]%CZ.
Example C49_example_3 : show (factor_zp 3 m3 id (@sort_degree 3) ex_draw3 40 (of_list m3 ex_f3)) =
  Ok (2, [:: ([:: (1, 1); (0, 1)], 3); ([:: (2, 1); (1, 1); (0, 2)], 1); ([:: (2, 1); (0, 1)], 1)])%CZ.
Proof. by vm_compute. Qed.
Example C49_example_2 : show (factor_zp 2 m2 id (@sort_degree 2) ex_draw2 40 (of_list m2 ex_f2)) =
  Ok (1, [:: ([:: (1, 1); (0, 1)], 2); ([:: (3, 1); (2, 1); (0, 1)], 1); ([:: (3, 1); (1, 1); (0, 1)], 1)])%CZ.
Proof. by vm_compute. Qed.
Example C49_hypotheses : [/\ Znumtheory.prime 3, sorts_by_degree (@sort_degree 3), draws 3 ex_draw3, unormal m3 (of_list m3 ex_f3) & (udeg (of_list m3 ex_f3) < maxdeg)%CZ].
Proof.
split; [exact: Znumtheory.prime_3|exact: sort_degree_ok|by move=> k; apply: Z.mod_pos_bound| |by []].
by split; [|split]; repeat constructor.
Qed.
