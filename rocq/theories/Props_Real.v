(** * C35, C36: real root bound, interval transformations and real root isolation (realroot.hh, realroot.cc).

    Every statement about roots is for the roots in an arbitrary real closed field R (the real numbers are one; the
    real algebraic numbers, which contain all real roots of integer polynomials, are another). *)
From Verif Require Import Prelude Coef Spec SpecProofs GcdPoly GcdProofs MonoStruct MonoStructProofs OrderSpec PairVec PairVecProofs Heap Poly
  PolyMulProofs PolyOps ConvertProofs QQ NumSpec QQProofs UGcdBase Uspensky RootBound.
From mathcomp Require Import all_ssreflect all_algebra ssrZ polyrcf realalg.
From Verif Require Import UspMath UspBase UspTrans UspIso UspList UspVec UspBound UspTop UspTerm UspTermV UspSqf UspAb.
Import Order.TTheory GRing.Theory Num.Theory.
Set Implicit Arguments.
Unset Strict Implicit.
Local Open Scope ring_scope.
Delimit Scope Z_scope with CZ.

(** ** specification *)
(** a polynomial in one variable: exponents non-negative and decreasing, no zero coefficient; in the library the
    exponents are int64_t *)
Definition poly1 (p : list (Z * Z)) : Prop := normal uok (m_gt uniS) Zc p.
Definition upolynomial (p : list (Z * Z)) : Prop := poly1 p /\ (udeg p < 2 ^ 63)%CZ.
(** embeddings of integers and rationals, value of a polynomial at a point *)
Definition intv (R : rcfType) (z : Z) : R := (int_of_Z z)%:~R.
Definition ratv (R : rcfType) (q : qqc) : R := intv R (qnum (proj1_sig q)) / intv R (qden (proj1_sig q)).
Definition value (R : rcfType) (p : list (Z * Z)) (x : R) : R := \sum_(t <- p) intv R t.2 * x ^+ Z.to_nat t.1.
(** value at an integer *)
Definition zvalue (p : list (Z * Z)) (x : Z) : Z := fold_right (fun t s => (snd t * x ^ fst t + s)%CZ) 0%CZ p.
Definition constant (p : list (Z * Z)) : Prop := (udeg p <= 0)%CZ.
(** no non-constant h with h^2 r = p; no common non-constant divisor *)
Definition squarefree (p : list (Z * Z)) : Prop :=
  forall h r, poly1 h -> poly1 r -> (forall x, zvalue p x = (zvalue h x * zvalue h x * zvalue r x)%CZ) -> constant h.
Definition no_common_divisor (p q : list (Z * Z)) : Prop :=
  forall h r s, poly1 h -> poly1 r -> poly1 s ->
    (forall x, zvalue p x = (zvalue h x * zvalue r x)%CZ) -> (forall x, zvalue q x = (zvalue h x * zvalue s x)%CZ) -> constant h.
(** [J] holds [r] and no other element of [S]: either J is the point r, or r is an inner point of J, which is
    shorter than 1 *)
Definition holds_only (R : rcfType) (S : R -> Prop) (J : R * R) (r : R) : Prop :=
  (J.1 = r /\ J.2 = r) \/ [/\ J.1 < r, r < J.2, J.2 - J.1 < 1 & forall x, J.1 <= x -> x <= J.2 -> S x -> x = r].
(** the intervals are in increasing order and do not overlap *)
Fixpoint in_order (R : rcfType) (a : R) (Is : list (R * R)) : Prop :=
  match Is with [::] => True | J :: Is' => [/\ a <= J.1, J.1 <= J.2 & in_order J.2 Is'] end.
(** the intervals Is isolate the elements of T among those of S: rs lists T in increasing order, one interval for
    each *)
Definition isolate (R : rcfType) (S T : R -> Prop) (Is : list (R * R)) (rs : list R) : Prop :=
  [/\ sorted <%R rs, (forall x, x \in rs <-> T x), List.Forall2 (holds_only S) Is rs & exists a, in_order a Is].

(** ** C35 *)
Theorem C35_root_bound (R : rcfType) G (x : R) : upolynomial G -> G <> [::] -> value G x = 0 -> `|x| < intv R (root_bound G).
Proof. move=> [N D] Ne E. apply: root_bound_ok => //. by rewrite tr_horner. Qed.
Theorem C35_scaling (R : rcfType) G B (x : R) : upolynomial G -> B <> 0%CZ -> upolynomial (b_to_1 G B) /\ value (b_to_1 G B) x = value G (intv R B * x).
Proof.
move=> [N D] nB. have [N' [D' [E _]]] := b_to_1_ok R N nB. split; first by split=> //; rewrite D'.
change (ueval (b_to_1 G B) x = ueval G (zr R B * x)). by rewrite -!tr_horner E horner_comp hornerZ hornerX.
Qed.
Theorem C35_left_half (R : rcfType) G (x : R) : upolynomial G ->
  upolynomial (half_left G) /\ value (half_left G) x = 2%:R ^+ Z.to_nat (udeg G) * value G (x / 2%:R).
Proof.
move=> [N D]. have [N' [D' [E _]]] := half_left_ok R N. split; first by split=> //; rewrite D'.
change (ueval (half_left G) x = 2%:R ^+ dg G * ueval G (x / 2%:R)). by rewrite -!tr_horner E lh_horner mulrC [x / _]mulrC mulrC.
Qed.
Theorem C35_right_half (R : rcfType) G : upolynomial G ->
  exists2 g, half_right G = Ok g & upolynomial g /\ forall x : R, value g x = 2%:R ^+ Z.to_nat (udeg G) * value G ((x + 1) / 2%:R).
Proof.
move=> [N D]. have [g E [N' Eg]] := half_right_ok R N D. exists g => //.
case EG: (G) => [|t G']; last rewrite -EG.
  move: E. rewrite EG /= => -[<-]. split=> //; first by split=> //; exact: n_nil. move=> x. by rewrite /value !big_nil mulr0.
have Ne : G <> [::] by rewrite EG.
have [Ne' D'] := half_right_deg N Ne N' Eg. split; first by split=> //; rewrite D'. move=> x.
change (ueval g x = 2%:R ^+ dg G * ueval G ((x + 1) / 2%:R)). by rewrite -!tr_horner Eg rh_horner [X in _ * _.[X]]mulrC [1 + x]addrC.
Qed.
(** y in (0, oo) corresponds to 1/(1+y) in (0,1) *)
Theorem C35_unit_to_infinity (R : rcfType) G : upolynomial G ->
  exists2 g, to_inf G = Ok g & normal uok (m_gt uniS) Zc g /\ forall y : R, 1 + y != 0 -> value g y = (1 + y) ^+ Z.to_nat (udeg G) * value G (1 + y)^-1.
Proof.
move=> [N D]. have [g E [N' Eg]] := to_inf_ok R N D. exists g => //. split=> // y Hy.
change (ueval g y = (1 + y) ^+ dg G * ueval G (1 + y)^-1). rewrite -!tr_horner Eg moeb_horner //. exact: tr_size_le.
Qed.
(** y in (0, oo) corresponds to (a y + b)/(1+y) between a and b *)
Theorem C35_interval_to_infinity (R : rcfType) G (a b : qqc) : upolynomial G -> u_is_number G = false ->
  exists2 g, r_to_ab G a b = Ok g & normal uok (m_gt uniS) Zc g /\ exists2 c : R, 0 < c & forall y : R, 1 + y != 0 ->
    value g y = (c * (1 + y)) ^+ Z.to_nat (udeg G) * value G ((ratv R a * y + ratv R b) / (1 + y)).
Proof.
move=> [N D] NN. have [g E [N' Eg]] := r_to_ab_ok R a b N NN D. exists g => //. split=> //.
exists (zr R (Z.lcm (qden (proj1_sig a)) (qden (proj1_sig b)))).
  apply: zr_lt0. have ad0 := proj1 (qqc_ok a). have bd0 := proj1 (qqc_ok b). have := Z.lcm_nonneg (qden (proj1_sig a)) (qden (proj1_sig b)).
  have : Z.lcm (qden (proj1_sig a)) (qden (proj1_sig b)) <> 0%CZ by move/Z.lcm_eq_0; lia. lia.
move=> y Hy. have := Eg y Hy. by rewrite !tr_horner.
Qed.
(** Descartes' rule as the isolation uses it: the number of sign changes of the transformed polynomial is 0 only if
    there is no root in (0,1), and 1 only if there is exactly one. *)
Theorem C35_no_sign_change (R : rcfType) G g : upolynomial G -> G <> [::] -> to_inf G = Ok g -> coeffsignchanges g = 0%N -> forall x : R, 0 < x -> x < 1 -> value G x <> 0.
Proof.
move=> [N D] Ne. have [g' -> [V0 V1]] := @to_inf_v R G (conj N (conj Ne D)). move=> [<-] /V0 S x x0 x1.
have Sz := tr_size_le R N. have := no_root Sz (tr_neq0 R N Ne) S x0 x1. rewrite tr_horner => /eqP. by [].
Qed.
Theorem C35_one_sign_change (R : rcfType) G g : upolynomial G -> G <> [::] -> to_inf G = Ok g -> coeffsignchanges g = 1%N ->
  exists x : R, [/\ 0 < x, x < 1, value G x = 0 & forall y, 0 < y -> y < 1 -> value G y = 0 -> y = x].
Proof.
move=> [N D] Ne. have [g' -> [V0 V1]] := @to_inf_v R G (conj N (conj Ne D)). move=> [<-] E1.
have S1 : none1 R G by apply/V1; rewrite E1. have S0 : ~ nsame R G by move/V0; rewrite E1.
have Sz := tr_size_le R N. have [x [x0 x1 X]] := root_exists Sz S1 S0. exists x. split=> //; first by rewrite tr_horner in X.
move=> y y0 y1 Y. apply: (root_unique Sz (tr_neq0 R N Ne) S1) => //. by rewrite tr_horner.
Qed.
Print Assumptions C35_root_bound.
Print Assumptions C35_scaling.
Print Assumptions C35_left_half.
Print Assumptions C35_right_half.
Print Assumptions C35_unit_to_infinity.
Print Assumptions C35_interval_to_infinity.
Print Assumptions C35_no_sign_change.
Print Assumptions C35_one_sign_change.

(** ** C36 *)
Lemma number_constant p : poly1 p -> u_is_number p -> constant p.
Proof. move=> _. rewrite /constant. case: p => [|[e c] [|t p]] //= H; lia. Qed.
Lemma constant_number p : poly1 p -> constant p -> u_is_number p.
Proof.
move=> N. rewrite /constant. case: p N => [|[e c] [|t p]] //= N H; first by have [/= ? _] := n_in N (or_introl erefl); lia.
have := n_head (t := t) N (or_introl erefl). lia.
Qed.
Lemma sqf_of p : squarefree p -> sqfree p.
Proof. move=> S h r Nh Nr E. apply: constant_number => //. exact: (S h r). Qed.
Lemma co_of p q : no_common_divisor p q -> nocommon p q.
Proof. move=> S h r s Nh Nr Ns E1 E2. apply: constant_number => //. exact: (S h r s). Qed.
Lemma archi (x : realalg) : exists n, x < 2%:R ^+ n.
Proof. exists (Num.bound x). exact: upper_nthrootP. Qed.
Definition interval (R : rcfType) (t : qqc * qqc) : R * R := (ratv R t.1, ratv R t.2).
Lemma order_of (R : rcfType) T (lo hi : T -> R) a l b : chain lo hi a l b -> in_order a (List.map (fun t => (lo t, hi t)) l).
Proof. elim: l a => [|t l IH] a //= [H1 H2 H3]. split=> //. exact: IH. Qed.

(** uspensky on several polynomials: if they are squarefree and pairwise without common divisor, it terminates, and
    whatever it returns isolates exactly the real roots (0 included) of the non-constant ones among them; the index
    returned with an interval is the polynomial that has the root in it. *)
Section Vector.
Variable Gs : list (list (Z * Z)).
Hypothesis HG : forall g, List.In g Gs -> upolynomial g.
Definition root_of (R : rcfType) (x : R) : Prop := exists2 g, List.In g Gs & ~ constant g /\ value g x = 0.
Definition root_at (R : rcfType) (i : nat) (x : R) : Prop := exists2 g, List.nth_error Gs i = Some g & ~ constant g /\ value g x = 0.
Theorem C36_isolates_all_roots (R : rcfType) fuel l : uspensky_v fuel Gs = Ok l ->
  exists rs, isolate (@root_of R) (@root_of R) (List.map (fun t => interval R t.1) l) rs /\ List.Forall2 (fun t r => @root_at R t.2 r) l rs.
Proof.
move=> E. have H : forall g, List.In g Gs -> normal uok (m_gt uniS) Zc g /\ (udeg g < 2 ^ 63)%CZ := HG.
have [rs [S M F [b C]]] := @uspensky_v_ok R fuel Gs l H E. exists rs.
have cn : forall g, List.In g Gs -> (u_is_number g = false <-> ~ constant g).
  move=> g Ig. have [N D] := HG Ig. split; first by move=> Hn /(constant_number N); rewrite Hn. move=> Hc. apply/negbTE/negP => /(number_constant N). by [].
have RtE : forall x : R, (exists2 g, List.In g Gs & u_is_number g = false /\ (tr R g).[x] = 0) <-> root_of x.
  move=> x. split=> -[g Ig [H1 H2]]; exists g => //; rewrite tr_horner in H2 *; (split; last exact: H2); by apply/cn.
split; last first.
  apply: forall2_impl F => t r [_ [g Hg [H1 H2]]]. exists g => //. rewrite tr_horner in H2. split=> //. apply/cn => //. exact: List.nth_error_In Hg.
split=> //.
- move=> x. rewrite M. exact: RtE.
- have {}F : List.Forall2 (fun t r => holds_only (@root_of R) (interval R t.1) r) l rs.
    apply: forall2_impl F => t r [[_ H1] _]. case: H1 => [H1|[H1 H2 H3 H4]]; [by left|right]. split=> // x x1 x2 /RtE. exact: H4.
  elim: F => [|t r l' r' H1 _ IH] /=; constructor=> //.
- exists (- b). exact: (order_of C).
Qed.
Hypothesis Hsq : forall g, List.In g Gs -> g <> [::] -> squarefree g.
Hypothesis Hco : forall i j g h, List.nth_error Gs i = Some g -> List.nth_error Gs j = Some h -> i <> j -> no_common_divisor g h.
Theorem C36_terminates : exists N l, forall fuel, (N <= fuel)%N -> uspensky_v fuel Gs = Ok l.
Proof.
have H : forall g, List.In g Gs -> normal uok (m_gt uniS) Zc g /\ (udeg g < 2 ^ 63)%CZ := HG.
have nn : forall g, u_is_number g = false -> g <> [::] by move=> g Hg Eg; rewrite Eg in Hg.
apply: (uspensky_v_total archi H).
- move=> g Ig Ng. apply: sqfree_coprime; [exact: (proj1 (H g Ig))|exact: nn|]. apply: sqf_of. apply: Hsq => //. exact: nn.
- move=> i j g h Hi Hj Ng Nh Nij. apply: nocommon_coprime; [exact: (proj1 (H g (List.nth_error_In _ _ Hi)))|exact: (proj1 (H h (List.nth_error_In _ _ Hj)))|exact: nn|].
  apply: co_of. exact: Hco Hi Hj Nij.
Qed.
End Vector.

(** uspensky on one squarefree polynomial: it terminates and isolates exactly the non-zero real roots.  The root 0
    is not returned (below): this is the part of C36 that does not hold for this overload. *)
Theorem C36_single_isolates_nonzero_roots_partial (R : rcfType) fuel G l : upolynomial G -> G <> [::] -> uspensky fuel G = Ok l ->
  exists rs, isolate (fun x : R => value G x = 0) (fun x : R => x <> 0 /\ value G x = 0) (List.map (@interval R) l) rs.
Proof.
move=> [N D] Ne E. have [rs [S M F [b C]]] := @uspensky_ok R fuel G l N D Ne E. exists rs. split=> //.
- move=> x. rewrite M tr_horner. split=> -[H1 H2]; split=> //; by apply/eqP.
- have {}F : List.Forall2 (fun t r => holds_only (fun x : R => value G x = 0) (interval R t) r) l rs.
    apply: forall2_impl F => t r [_ H1]. case: H1 => [H1|[H1 H2 H3 H4]]; [by left|right]. split=> // x x1 x2 X. apply: H4 => //. by rewrite tr_horner.
  elim: F => [|t r l' r' H1 _ IH] /=; constructor=> //.
- exists (- b). exact: (order_of C).
Qed.
Theorem C36_single_terminates G : upolynomial G -> G <> [::] -> squarefree G -> exists N l, forall fuel, (N <= fuel)%N -> uspensky fuel G = Ok l.
Proof. move=> [N D] Ne S. apply: (uspensky_total archi N D). apply: sqfree_coprime => //. exact: sqf_of. Qed.
(** the polynomial x: 0 is a root and nothing is returned *)
Theorem C36_single_zero_root_refuted : forall fuel, (1 <= fuel)%N -> uspensky fuel [:: (1%CZ, 1%CZ)] = Ok [::].
Proof. by move=> [|fuel] // _; vm_compute. Qed.
Print Assumptions C36_isolates_all_roots.
Print Assumptions C36_terminates.
Print Assumptions C36_single_isolates_nonzero_roots_partial.
Print Assumptions C36_single_terminates.
Print Assumptions C36_single_zero_root_refuted.

(** ** the hypotheses are met: x and 2x-1 (a run with x^2-2 too: intervals around -sqrt 2, 0, 1/2 and sqrt 2) *)
Definition shown (l : outcome (list item)) : list (qq * qq * nat) := match l with Ok l => List.map (fun t => (proj1_sig t.1.1, proj1_sig t.1.2, t.2)) l | _ => [::] end.
Example C36_ex_run : shown (uspensky_v 20 [:: [:: (1, 1)]; [:: (1, 2); (0, -1)]; [:: (2, 1); (0, -2)]]%CZ) =
  [:: ({| qnum := -3; qden := 2 |}, {| qnum := -1; qden := 1 |}, 2%N); ({| qnum := 0; qden := 1 |}, {| qnum := 0; qden := 1 |}, 0%N);
      ({| qnum := 1; qden := 2 |}, {| qnum := 1; qden := 2 |}, 1%N); ({| qnum := 5; qden := 4 |}, {| qnum := 3; qden := 2 |}, 2%N)].
Proof. by vm_compute. Qed.
Lemma itr_deg (h : uz) : poly1 h -> (size (itr h) <= 1)%N -> constant h.
Proof.
move=> N. rewrite /constant. case: h N => [|[e c] h] N //=. rewrite (@itr_size [rcfType of realalg]) // /dg /=. have [/= ? _] := n_in N (or_introl erefl). lia.
Qed.
Example C36_ex_squarefree : squarefree [:: (1, 1)]%CZ /\ squarefree [:: (1, 2); (0, -1)]%CZ.
Proof.
have H : forall p : uz, poly1 p -> p <> [::] -> udeg p = 1%CZ -> squarefree p.
  move=> p N Ne Ed h r Nh Nr E. apply: itr_deg => //.
  have Ep : itr p = itr h * itr h * itr r by apply: zvals_eq => x; rewrite !hornerM !itr_horner; try exact: n_ok; rewrite -!iz_mul; congr (int_of_Z _); exact: E.
  have Sp := itr_size [rcfType of realalg] N Ne. have p0 : itr p != 0 by rewrite -size_poly_eq0 Sp.
  move: p0. rewrite Ep !mulf_eq0 !negb_or => /andP [/andP [h0 _] r0].
  move: Sp. rewrite Ep size_mul ?mulf_neq0 // size_mul // /dg Ed. have : (0 < size (itr h))%N by rewrite size_poly_gt0. have : (0 < size (itr r))%N by rewrite size_poly_gt0.
  move: (size (itr h)) (size (itr r)). clear. move=> a b /=. lia.
split; apply: H => //; try (apply: n_cons => //; try exact: n_nil; try by move=> t [<-|[]]); apply: n_cons => //; exact: n_nil.
Qed.

Example C36_ex_no_common_divisor : no_common_divisor [:: (1, 1)]%CZ [:: (1, 2); (0, -1)]%CZ.
Proof.
move=> h r s Nh Nr Ns E1 E2. apply: itr_deg => //.
have E : itr h * (2%:R *: itr r - itr s) = 1.
  apply: zvals_eq => x. rewrite hornerM hornerD hornerN hornerZ !itr_horner; try exact: n_ok. rewrite hornerC mulrDr mulrN mulrCA -!iz_mul -E1 -E2 /=.
  have -> : (1 * x ^ 1 + 0 = x)%CZ by lia. have -> : (2 * x ^ 1 + (-1 * x ^ 0 + 0) = 2 * x + -1)%CZ by lia. rewrite iz_add iz_mul. by rewrite opprD addrA subrr add0r.
have U : itr h != 0 by apply/eqP => H0; move: E; rewrite H0 mul0r => /eqP; rewrite eq_sym oner_eq0.
have V : 2%:R *: itr r - itr s != 0 by apply/eqP => H0; move: E; rewrite H0 mulr0 => /eqP; rewrite eq_sym oner_eq0.
have := congr1 (fun p : {poly int} => size p) E. rewrite size_mul // size_poly1. have : (0 < size (2%:R *: itr r - itr s)%R)%N by rewrite size_poly_gt0.
move: (size _) (size _). clear. lia.
Qed.
