(** * Signs around an isolated root, and gcds over the reals (for Uroot.v). *)
From Verif Require Import Prelude Coef Spec SpecProofs GcdDom GcdPoly GcdProofs MonoStruct MonoStructProofs OrderSpec PairVec PairVecProofs Heap Poly
  PolyMulProofs PolyOps ConvertProofs QQ NumSpec QQProofs UGcdBase Uspensky RootBound.
From mathcomp Require Import all_ssreflect all_algebra ssrZ polyrcf realalg.
From Verif Require Import UspMath UspBase UspTrans UspSqf UspIso.
Import Order.TTheory GRing.Theory Num.Theory.
Set Implicit Arguments.
Unset Strict Implicit.
Local Open Scope ring_scope.
Delimit Scope Z_scope with CZ.
Local Notation unorm := (normal uok (m_gt uniS) Zc).
Local Notation HKz := (domain_ring Zc Zc_domain).

Section R.
Variable R : rcfType.
Notation tr := (tr R).
Notation zr := (zr R).
Notation qr := (qr R).

(** the sign of a polynomial with one simple root in [l, r] *)
Lemma sign_at (P : {poly R}) (l r a : R) : P^`().[a] != 0 -> l <= a -> a <= r -> root P a -> (forall x, l <= x -> x <= r -> root P x -> x = a) ->
  exists2 s, s != 0 & forall x, l <= x -> x <= r -> Num.sg P.[x] = Num.sg (x - a) * s.
Proof.
move=> C la ar Ra U. have /factor_theorem [Q EQ] := Ra. 
have Qa : Q.[a] != 0.
  apply/negP => /eqP Q0. by move: C; rewrite EQ derivM derivXsubC mulr1 hornerD hornerM Q0 hornerXsubC subrr mulr0 addr0 eqxx.
have NQ : {in `[l, r], forall x, ~~ root Q x}.
  move=> x. rewrite in_itv /= => /andP [lx xr]. apply/negP => Rx. have xa : x = a by apply: U => //; rewrite EQ rootM Rx. by move: Qa; rewrite -xa (eqP Rx) eqxx.
exists (Num.sg Q.[a]); first by rewrite sgr_eq0.
move=> x lx xr. rewrite EQ hornerM hornerXsubC sgrM mulrC. congr (_ * _). apply: (polyrN0_itv NQ); rewrite in_itv /=; by apply/andP.
Qed.
Lemma q_sgn_ok a : zr (q_sgn a) = Num.sg (qr a).
Proof.
rewrite /q_sgn /qq_sgn /UspIso.qr. have := proj1 (qqc_ok a). case: (proj1_sig a) => n d /= d0.
have D : 0 < zr d by exact: zr_lt0. rewrite sgrM sgrV (gtr0_sg D) mulr1.
case: n => [|p|p] /=; rewrite ?sgr0 //; first by rewrite gtr0_sg // zpos_gt.
by rewrite (_ : Z.neg p = - Z.pos p)%CZ // zr_opp sgrN gtr0_sg // zpos_gt.
Qed.
Lemma q_is0_ok a : q_is0 a = (qr a == 0).
Proof. by rewrite /q_is0 (qr_eqb R) qr_int. Qed.
Lemma sgn_eqb a b : (q_sgn a =? q_sgn b)%CZ = (Num.sg (qr a) == Num.sg (qr b)).
Proof. by rewrite -!q_sgn_ok zr_eq. Qed.
Lemma sgn_mul_lt a b : (q_sgn a * q_sgn b <? 0)%CZ = (Num.sg (qr a) * Num.sg (qr b) < 0).
Proof. by rewrite -!q_sgn_ok -zr_mul -(zr_0 R) zr_lt. Qed.
Lemma sgn_mul_gt a b : (q_sgn a * q_sgn b >? 0)%CZ = (0 < Num.sg (qr a) * Num.sg (qr b)).
Proof. by rewrite -!q_sgn_ok -zr_mul -(zr_0 R) zr_lt Z.gtb_ltb. Qed.

(** polynomials with the same values over R are the same *)
Lemma tr_sub (p q : uz) t : unorm p -> unorm q -> tr p = tr q -> List.In t p -> List.In t q.
Proof.
case: t => e c Np Nq E I. have [/= e0 c0] := n_in Np I. have T := tr_in R Np I.
have S : (tr q)`_(Z.to_nat e) != 0 by rewrite -E T; apply/negP; rewrite -(zr_0 R) zr_eq => /Z.eqb_eq.
have [c' I'] := tr_supp Nq S. rewrite Z2Nat.id // in I'. have T' := tr_in R Nq I'. have : zr c' == zr c by rewrite -T -T' E. by rewrite zr_eq => /Z.eqb_eq <-.
Qed.
Lemma tr_req (p q : uz) : unorm p -> unorm q -> tr p = tr q -> req Zc (MonoStruct.graw usm p) (MonoStruct.graw usm q).
Proof.
have G : forall p q : uz, unorm p -> unorm q -> tr p = tr q -> forall m, coef Zc (MonoStruct.graw usm p) m <> 0%CZ -> coef Zc (MonoStruct.graw usm q) m = coef Zc (MonoStruct.graw usm p) m.
  move=> {}p {}q Np Nq E m Hm. have [t [I M]] := usupp Zc Zc_domain p m Np Hm.
  rewrite -(coef_proper Zc HKz (MonoStruct.graw usm p) _ _ M) -(coef_proper Zc HKz (MonoStruct.graw usm q) _ _ M).
  rewrite (uin_coef Zc Zc_domain p t Np I). apply: (uin_coef Zc Zc_domain q t Nq). exact: tr_sub I.
move=> Np Nq E m. case: (Z.eq_dec (coef Zc (MonoStruct.graw usm p) m) 0) => [E0|N0]; last by rewrite (G p q).
case: (Z.eq_dec (coef Zc (MonoStruct.graw usm q) m) 0) => [E1|N1]; first by rewrite E0 E1. by rewrite (G q p).
Qed.
(** divisibility *)
Lemma tr_dvd (p q : uz) : rdivides Zc (MonoStruct.graw usm p) (MonoStruct.graw usm q) -> exists c : {poly Z}, tr q = map_poly zr c * tr p.
Proof. move=> [w E]. exists (toP w). rewrite /UspBase.tr (toP_mul E). by rewrite rmorphM. Qed.
Lemma dvd_tr (p q r : uz) : unorm p -> unorm q -> unorm r -> tr r = tr q * tr p -> rdivides Zc (MonoStruct.graw usm p) (MonoStruct.graw usm r).
Proof.
move=> Np Nq Nr E.
have HC : forall a b, comp_good uniS uok usm Zc no_compress a b by [].
have [g [Eg [Ng Rg]]] := p_mul_ok uniS uok usm Zc uniS_ok HKz Zc_domain no_compress q p (conj (HC _ _) (HC _ _)) Nq Np.
have Tg : tr g = tr q * tr p by rewrite /UspBase.tr (toP_mul Rg) rmorphM.
exists (MonoStruct.graw usm q). move=> m. rewrite -(Rg m). apply: tr_req => //. by rewrite E.
Qed.
(** a common root is a root of the gcd *)
Lemma gcd_root (p q g : uz) x : unorm p -> unorm q -> unorm g -> p <> [::] -> is_gcd Zc (MonoStruct.graw usm p) (MonoStruct.graw usm q) (MonoStruct.graw usm g) ->
  root (tr p) x -> root (tr q) x -> root (tr g) x.
Proof.
move=> N M Ng Ne [_ [_ Gg]] Rp Rq. have G0 : itr p != 0. { apply/eqP => E. have := tr_neq0 R N Ne. by rewrite itr_tr E rmorph0 eqxx. }
set f := map_poly (intr : int -> rat) (itr p). set h := map_poly (intr : int -> rat) (itr q).
have [u [a a0 Eu]] := rat_poly_scale (gcdp f h).
have u_dvd : forall q : {poly int}, gcdp f h %| map_poly (intr : int -> rat) q -> exists r, q = r * zprimitive u.
  move=> w. rewrite Eu dvdpZl ?invr_eq0 ?intr_eq0 // dvdp_rat_int => /dvdpP_int [r ->]. exists r. by rewrite mulrC.
set v := ulist (size (zprimitive u)) (zprimitive u). have Nv : unorm v := ulist_norm _ _. have Ev : itr v = zprimitive u := itr_ulist (leqnn _).
have D : forall w : uz, unorm w -> gcdp f h %| map_poly (intr : int -> rat) (itr w) -> rdivides Zc (MonoStruct.graw usm v) (MonoStruct.graw usm w).
  move=> w Nw /u_dvd [r Er]. apply: (@dvd_tr v (ulist (size r) r) w Nv (ulist_norm _ _) Nw).
  by rewrite !itr_tr Ev itr_ulist // Er rmorphM.
have Dg := Gg _ (D p N (dvdp_gcdl f h)) (D q M (dvdp_gcdr f h)).
have [c Ec] := tr_dvd Dg. rewrite Ec rootM. apply/orP. right.
have Rg : root (map_poly ratr (gcdp f h)) x by rewrite gcdp_map root_gcd -!tr_rat Rp Rq.
rewrite itr_tr Ev. have Ez := zpolyEprim u.
have : root (map_poly (ratr : rat -> R) (map_poly (intr : int -> rat) u)) x.
  move: Rg. rewrite Eu map_polyZ rootZ // fmorph_eq0 invr_eq0 intr_eq0. by [].
rewrite -map_poly_comp. rewrite (eq_map_poly (g := intr)); last by move=> z /=; rewrite ratr_int.
rewrite {1}Ez map_polyZ rootZ // intr_eq0 zcontents_eq0. apply/eqP => U0. by case: (u_dvd _ (dvdp_gcdl f h)) => r Er; move: G0; rewrite Er U0 zprimitive0 mulr0 eqxx.
Qed.
End R.
