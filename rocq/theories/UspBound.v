(** * The root bound of realroot.cc 116-141. *)
From Verif Require Import Prelude Coef Spec SpecProofs GcdPoly GcdProofs MonoStruct MonoStructProofs OrderSpec PairVec PairVecProofs Heap Poly
  PolyMulProofs PolyOps ConvertProofs QQ NumSpec QQProofs UGcdBase Uspensky RootBound.
From mathcomp Require Import all_ssreflect all_algebra ssrZ polyrcf.
From Verif Require Import UspMath UspBase UspTrans UspIso.
Import Order.TTheory GRing.Theory Num.Theory.
Set Implicit Arguments.
Unset Strict Implicit.
Local Open Scope ring_scope.
Delimit Scope Z_scope with CZ.
Local Notation unorm := (normal uok (m_gt uniS) Zc).

Lemma max_abs_fold (L : uz) b : let r := fold_left (fun b t => if (Z.abs (snd t) >? b)%CZ then Z.abs (snd t) else b) L b in
  (b <= r)%CZ /\ forall t, List.In t L -> (Z.abs (snd t) <= r)%CZ.
Proof.
elim: L b => [|t L IH] b /=; first by split=> //; lia.
case: Z.gtb_spec => H; case: (IH (Z.abs (snd t))) => A1 A2; case: (IH b) => B1 B2; split; try lia; move=> u [<-|I]; try lia; auto.
Qed.
Lemma max_abs_ok (G : uz) t : List.In t G -> (Z.abs (snd t) <= max_abs G)%CZ.
Proof.
case: G => [|u G] //. rewrite /max_abs /=. have := max_abs_fold G (Z.abs u.2). cbv zeta. set r := fold_left _ _ _. move=> [A B] [<- //|]. exact: B.
Qed.
Lemma root_bound_ge t (G : uz) : snd t <> 0%CZ -> (max_abs (t :: G) < (root_bound (t :: G) - 2) * Z.abs (snd t))%CZ /\ (3 <= root_bound (t :: G))%CZ.
Proof.
move=> N. have HM := max_abs_ok (G := t :: G) (or_introl erefl). rewrite /root_bound. set M := max_abs _ in HM *. set q := Z.quot M (Z.abs t.2).
have Hq : q = (M / Z.abs t.2)%CZ by rewrite /q Z.quot_div_nonneg //; lia.
have D := Z_div_mod_eq_full M (Z.abs t.2). have Dm := Z.mod_pos_bound M (Z.abs t.2) ltac:(lia). rewrite -Hq in D.
have q1 : (1 <= q)%CZ by rewrite Hq; apply: Z.div_le_lower_bound; lia.
have HB : (q + 3 <= (if q + 3 =? 2 ^ Z.log2 (q + 3) then q + 3 else 2 * 2 ^ Z.log2 (q + 3)))%CZ.
  case: Z.eqb_spec => // _; first lia. have [_ H] := Z.log2_spec (q + 3) ltac:(lia). move: H. rewrite -Z.add_1_r Z.pow_add_r; try lia. exact: Z.log2_nonneg.
cbv zeta. move: HB. set B := (if _ then _ else _). move=> HB. split; last lia. clear -D Dm HB N q1. nia.
Qed.

Section R.
Variable R : rcfType.
Lemma cauchy (F : {poly R}) (M L x : R) n : size F = n.+1 -> (forall i, (i < n)%N -> `|F`_i| <= M) -> 0 < L -> L <= `|F`_n| -> 0 <= M ->
  F.[x] = 0 -> (`|x| - 1) * L < M \/ `|x| <= 1.
Proof.
move=> Sz HM L0 HL M0. rewrite horner_coef Sz big_ord_recr /= => /eqP. rewrite addrC addr_eq0 => /eqP E.
case: (lerP `|x| 1) => X; [by right|left].
have P : 0 < `|x| - 1 by rewrite subr_gt0.
have H1 : L * `|x| ^+ n <= M * \sum_(i < n) `|x| ^+ i.
  apply: (@le_trans _ _ `|F`_n * x ^+ n|). by rewrite normrM normrX ler_wpmul2r // exprn_ge0.
  rewrite E normrN. apply: le_trans (ler_norm_sum _ _ _) _. rewrite mulr_sumr. apply: ler_sum => i _. rewrite normrM normrX ler_wpmul2r ?exprn_ge0 //. exact: HM.
have H2 : (`|x| - 1) * (\sum_(i < n) `|x| ^+ i) = `|x| ^+ n - 1.
  by rewrite -subrX1.
have X0 : 0 < `|x| ^+ n by rewrite exprn_gt0 // (lt_trans ltr01).
rewrite -(ltr_pmul2r X0).
have H3 : (`|x| - 1) * L * `|x| ^+ n <= M * (`|x| ^+ n - 1).
  rewrite -H2 mulrCA -mulrA. by rewrite ler_pmul2l.
case: (ltrgt0P M) M0 => // [M0 _|M0 _].
- apply: le_lt_trans H3 _. by rewrite ltr_pmul2l // ltr_subl_addr ltr_addl ltr01.
- exfalso. move: H1. rewrite M0 mul0r leNgt mulr_gt0 //.
Qed.
Lemma root_bound_ok (G : uz) (x : R) : unorm G -> G <> [::] -> (tr R G).[x] = 0 -> `|x| < zr R (root_bound G).
Proof.
move=> N Ne X. have Sz := tr_size R N Ne. case: G N Ne X Sz => [//|[e c] G] N _ X Sz.
have [e0 c0] := n_in N (or_introl erefl). rewrite /= in e0 c0.
have [HB H3] := @root_bound_ge (e, c) G c0. rewrite /= in HB. set B := root_bound _ in HB H3 *. set M := max_abs _ in HB.
have zabs z : `|zr R z| = zr R (Z.abs z).
  case: (Z.le_ge_cases 0 z) => H; [rewrite Z.abs_eq // ger0_norm //|rewrite Z.abs_neq // zr_opp ler0_norm //]. by rewrite zr_ge0; lia. by rewrite zr_le0; lia.
have M0 : (0 <= M)%CZ. { have := max_abs_ok (G := (e, c) :: G) (or_introl erefl). rewrite /= -/M. lia. }
have K1 : forall i, (i < dg ((e, c) :: G))%N -> `|(tr R ((e, c) :: G))`_i| <= zr R M.
  move=> i _. have [Z0|Nz] := eqVneq (tr R ((e, c) :: G))`_i 0.
    rewrite Z0 normr0 -(zr_0 R) zr_le. apply/Z.leb_le. exact: M0.
  have [a I] := tr_supp N Nz. rewrite -(Nat2Z.id i) (tr_in R N I) zabs zr_le. apply/Z.leb_le. exact: (max_abs_ok I).
have K2 : 0 < zr R (Z.abs c) by apply: zr_lt0 ; lia.
have K3 : zr R (Z.abs c) <= `|(tr R ((e, c) :: G))`_(dg ((e, c) :: G))|.
  rewrite /dg /= (tr_in R N (or_introl erefl)) zabs. by [].
have K4 : 0 <= zr R M by rewrite -(zr_0 R) zr_le; apply/Z.leb_le.
case: (cauchy Sz K1 K2 K3 K4 X) => H.
- have c1 : 0 < zr R (Z.abs c) by apply: zr_lt0; lia.
  have H' : (`|x| - 1) * zr R (Z.abs c) < zr R (B - 2)%CZ * zr R (Z.abs c).
    apply: lt_trans H _. rewrite -zr_mul zr_lt. apply/Z.ltb_lt. exact: HB.
  rewrite ltr_pmul2r // in H'. rewrite ltr_subl_addr -zr_1 -zr_add in H'. apply: lt_trans H' _. rewrite zr_lt. apply/Z.ltb_lt. lia.
- apply: le_lt_trans H _. rewrite -(zr_1 R) zr_lt. apply/Z.ltb_lt. lia.
Qed.
End R.
