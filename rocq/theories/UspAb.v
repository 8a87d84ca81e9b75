(** * The substitution of _upolynomial_Rtoab (realroot.cc 218-242). *)
From Verif Require Import Prelude Coef Spec SpecProofs GcdPoly GcdProofs MonoStruct MonoStructProofs OrderSpec PairVec PairVecProofs Heap Poly
  PolyMulProofs PolyOps ConvertProofs QQ NumSpec QQProofs UGcdBase Uspensky RootBound.
From mathcomp Require Import all_ssreflect all_algebra ssrZ polyrcf.
From Verif Require Import UspMath UspBase UspTrans UspIso.
Import Order.TTheory GRing.Theory Num.Theory.
Set Implicit Arguments.
Unset Strict Implicit.
Local Open Scope ring_scope.
Delimit Scope Z_scope with CZ.
Local Notation unorm := (normal uok (m_gt uniS) Zc).

Section R.
Variable R : rcfType.
Notation tr := (tr R).
Notation zr := (zr R).
Lemma lin_ok (a b : Z) : unorm (List.filter (fun t : Z * Z => negb (snd t =? 0)%CZ) [:: (1%CZ, a); (0%CZ, b)]) /\
  tr (List.filter (fun t : Z * Z => negb (snd t =? 0)%CZ) [:: (1%CZ, a); (0%CZ, b)]) = zr a *: 'X + (zr b)%:P.
Proof.
have T0 : tr [:: (0%CZ, b)] = (zr b)%:P by rewrite tr_cons tr_nil addr0 expr0 alg_polyC.
have N0 : b <> 0%CZ -> unorm [:: (0%CZ, b)] by move=> nb; apply: n_cons => //; exact: n_nil.
rewrite /=. case: (Z.eqb_spec a 0) => [->|na]; case: (Z.eqb_spec b 0) => [->|nb] /=.
- split; [exact: n_nil|]. by rewrite tr_nil zr_0 scale0r add0r.
- split; [exact: N0|]. by rewrite T0 zr_0 scale0r add0r.
- split; first by apply: n_cons => //; exact: n_nil. by rewrite tr_cons tr_nil zr_0 addr0 expr1.
- split; first by apply: n_cons => //; [move=> t [<- //|[]]|exact: N0]. by rewrite tr_cons T0 expr1.
Qed.
Lemma r_to_ab_loop_ok m pn pd (G g : uz) : unorm pn -> unorm pd -> unorm g -> (m < 2 ^ 63)%CZ -> (forall u, List.In u G -> (0 <= fst u <= m)%CZ /\ snd u <> 0%CZ) ->
  exists2 h, r_to_ab_loop m pn pd G g = Ok h & unorm h /\ forall y, (tr pd).[y] != 0 -> (tr h).[y] = (tr g).[y] + (tr pd).[y] ^+ (Z.to_nat m) * (tr G).[(tr pn).[y] / (tr pd).[y]].
Proof.
move=> Npn Npd Ng D. elim: G g Ng => [|[e c] G IH] g Ng HL /=; first by exists g => //; split=> // y _; rewrite tr_nil horner0 mulr0 addr0.
have [/= He Hc] := HL _ (or_introl erefl).
have Hm : (0 <= m - e < 2 ^ 63)%CZ by lia. have He' : (0 <= e < 2 ^ 63)%CZ by lia.
have [g1 -> [N1 E1]] /= := upow_ok R Npd Hm. have [g2 -> [N2 E2]] /= := upow_ok R Npn He'.
have [g3 -> [N3 E3]] /= := umulz_ok R N1 N2.
have [Ns Es] := uscal_ok R Hc N3. have [Na Ea] := uadd_ok R Ng Ns.
have [h -> [Nh Eh]] := IH _ Na (fun u Hu => HL u (or_intror Hu)). exists h => //. split=> // y Hy.
rewrite Eh // Ea Es E3 E1 E2 tr_cons !hornerD !hornerZ hornerM !horner_exp hornerX.
rewrite mulrDr addrA. congr (_ + _ + _). rewrite [RHS]mulrCA. congr (_ * _). rewrite expr_div_n.
have -> : Z.to_nat m = (Z.to_nat (m - e) + Z.to_nat e)%N by lia. rewrite exprD -mulrA. congr (_ * _). rewrite mulrC divfK //. by rewrite expf_neq0.
Qed.
Lemma r_to_ab_ok (G : uz) (a b : qqc) : unorm G -> u_is_number G = false -> (udeg G < 2 ^ 63)%CZ ->
  let den := Z.lcm (qden (proj1_sig a)) (qden (proj1_sig b)) in
  exists2 g, r_to_ab G a b = Ok g & unorm g /\ forall y, 1 + y != 0 -> (tr g).[y] = (zr den * (1 + y)) ^+ (dg G) * (tr G).[(qr R a * y + qr R b) / (1 + y)].
Proof.
move=> N NN D den. rewrite /r_to_ab NN.
set an := qnum (proj1_sig a). set ad := qden (proj1_sig a). set bn := qnum (proj1_sig b). set bd := qden (proj1_sig b).
have ad0 : (0 < ad)%CZ := proj1 (qqc_ok a). have bd0 : (0 < bd)%CZ := proj1 (qqc_ok b).
have [ka Ea] := Z.gcd_divide_l ad bd. have [kb Eb] := Z.gcd_divide_r ad bd. have g0 := Z.gcd_nonneg ad bd.
have gp : (0 < Z.gcd ad bd)%CZ. { case: (Z.eq_dec (Z.gcd ad bd) 0) => [/Z.gcd_eq_0_l E|]; lia. }
have Ed : den = (ka * bd)%CZ. { rewrite /den -/ad -/bd /Z.lcm. rewrite {1}Eb Z.div_mul; last lia. rewrite Z.abs_eq; [|nia]. nia. }
have Q1 : Z.quot (an * bd) (Z.gcd ad bd) = (an * kb)%CZ by rewrite {1}Eb Z.mul_assoc Z.quot_mul; lia.
have Q2 : Z.quot (bn * ad) (Z.gcd ad bd) = (bn * ka)%CZ by rewrite {1}Ea Z.mul_assoc Z.quot_mul; lia.
have ka0 : (0 < ka)%CZ by nia. have kb0 : (0 < kb)%CZ by nia. have den0 : (0 < den)%CZ by rewrite Ed; nia.
rewrite -/den Q1 Q2.
have [Nn En] := lin_ok (an * kb) (bn * ka). have [Nd Edn] := lin_ok den den.
have [h -> [Nh Eh]] := r_to_ab_loop_ok Nn Nd n_nil D (fun u Hu => deg_in N Hu). exists h => //. split=> // y Hy.
have P1 : (zr den *: 'X + (zr den)%:P).[y] = zr den * (1 + y) by rewrite hornerD hornerZ hornerX hornerC mulrDr mulr1 addrC.
have zd0 : zr den != 0 by rewrite -(zr_0 R) zr_eq; apply/negP => /Z.eqb_eq; lia.
rewrite Eh Edn P1 ?mulf_neq0 // tr_nil horner0 add0r En. congr (_ * _.[_]). rewrite hornerD hornerZ hornerX hornerC.
have Ha : zr (an * kb)%CZ = zr den * qr R a.
  have -> : den = (kb * ad)%CZ by rewrite Ed; nia. have z0 : zr ad != 0 by rewrite -(zr_0 R) zr_eq; apply/negP => /Z.eqb_eq; lia.
  rewrite /qr -/an -/ad !zr_mul -mulrA [zr ad * _]mulrC divfK // mulrC. by [].
have Hb : zr (bn * ka)%CZ = zr den * qr R b.
  have z0 : zr bd != 0 by rewrite -(zr_0 R) zr_eq; apply/negP => /Z.eqb_eq; lia.
  rewrite Ed /qr -/bn -/bd !zr_mul -mulrA [zr bd * _]mulrC divfK // mulrC. by [].
rewrite Ha Hb -mulrA -mulrDr -mulf_div mulfV // mul1r. by [].
Qed.
End R.
