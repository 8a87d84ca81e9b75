(** * Correctness of the interval halving of realroot.cc over a real closed field. *)
From Verif Require Import Prelude Coef Spec SpecProofs GcdPoly GcdProofs MonoStruct MonoStructProofs OrderSpec PairVec PairVecProofs Heap Poly
  PolyMulProofs PolyOps ConvertProofs QQ NumSpec QQProofs UGcdBase Uspensky RootBound.
From Coq Require Import QArith.
From mathcomp Require Import all_ssreflect all_algebra ssrZ polyrcf.
From Verif Require Import UspMath UspBase UspTrans.
Import Order.TTheory GRing.Theory Num.Theory.
Set Implicit Arguments.
Unset Strict Implicit.
Local Open Scope ring_scope.
Delimit Scope Z_scope with CZ.
Delimit Scope Q_scope with CQ.
Local Notation unorm := (normal uok (m_gt uniS) Zc).
Local Notation HKz := (domain_ring Zc Zc_domain).

Section R.
Variable R : rcfType.
Notation tr := (tr R).
Notation zr := (zr R).

(** ** Rationals *)
Definition QR (q : Q) : R := zr (Qnum q) / zr (Zpos (Qden q)).
Lemma zpos (p : positive) : zr (Zpos p) != 0. Proof. by rewrite -(zr_0 R) zr_eq. Qed.
Lemma zpos_gt (p : positive) : 0 < zr (Zpos p). Proof. exact: zr_lt0. Qed.
Lemma QR_eq a b : (a == b)%CQ -> QR a = QR b.
Proof. rewrite /Qeq /QR => E. apply/eqP. rewrite eqr_div ?zpos // -!zr_mul E. by []. Qed.
Lemma QR_add a b : QR (a + b)%CQ = QR a + QR b.
Proof. rewrite /QR /= addf_div ?zpos // -!zr_mul -zr_add. by []. Qed.
Lemma QR_mul a b : QR (a * b)%CQ = QR a * QR b.
Proof. by rewrite /QR /= mulf_div -!zr_mul. Qed.
Lemma QR_opp a : QR (- a)%CQ = - QR a.
Proof. by rewrite /QR /= zr_opp mulNr. Qed.
Lemma QR_int z : QR (inject_Z z) = zr z.
Proof. by rewrite /QR /= zr_1 divr1. Qed.
Lemma QR_lt a b : (QR a < QR b) <-> (a < b)%CQ.
Proof. rewrite /QR /Qlt ltr_pdivr_mulr ?zpos_gt // mulrAC ltr_pdivl_mulr ?zpos_gt // -!zr_mul zr_lt. split; lia. Qed.

(** the value of a rational of the library *)
Definition qr (a : qqc) : R := zr (qnum (proj1_sig a)) / zr (qden (proj1_sig a)).
Lemma qr_QR a : qr a = QR (qcval a).
Proof. rewrite /qr /QR /qcval /qval /=. have [P _] := qqc_ok a. by rewrite Z2Pos.id. Qed.
Lemma qr_add a b : qr (qqc_add a b) = qr a + qr b. Proof. by rewrite !qr_QR (QR_eq (qcval_add a b)) QR_add. Qed.
Lemma qr_mul a b : qr (qqc_mul a b) = qr a * qr b. Proof. by rewrite !qr_QR (QR_eq (qcval_mul a b)) QR_mul. Qed.
Lemma qr_neg a : qr (qqc_neg a) = - qr a. Proof. by rewrite !qr_QR (QR_eq (qcval_neg a)) QR_opp. Qed.
Lemma qr_sub a b : qr (qqc_sub a b) = qr a - qr b. Proof. by rewrite !qr_QR (QR_eq (qcval_sub a b)) /Qminus QR_add QR_opp. Qed.
Lemma qr_int z : qr (qqc_int z) = zr z. Proof. by rewrite qr_QR (QR_eq (qcval_int z)) QR_int. Qed.
Lemma qr_eqb a b : qqc_eqb a b = (qr a == qr b).
Proof.
have H := ceqb_eq QQc (domain_ring _ (field_domain _ QQc_field)) a b. change (ceqb QQc a b) with (qqc_eqb a b) in H.
apply/idP/eqP => [/H -> //|E]. apply/H. apply: qcval_inj. apply: Qle_antisym; apply: Qnot_lt_le => /QR_lt; by rewrite -!qr_QR E ltxx.
Qed.
Lemma qr_ltb a b : q_ltb a b = (qr a < qr b).
Proof.
rewrite /q_ltb. have H := qq_ltb_ok _ _ (qqc_ok a) (qqc_ok b). rewrite !qr_QR. apply/idP/idP => [/H /QR_lt //|/QR_lt]. by move/H.
Qed.
Lemma qr_half a : qr (qqc_quo a (qqc_int 2)) = qr a / 2%:R.
Proof.
have H : qqc_mul (qqc_quo a (qqc_int 2)) (qqc_int 2) = a.
  have N : qqc_int 2 <> qqc_int 0. { move=> E. have := congr1 (fun x => proj1_sig x) E. by []. }
  exact: (field_quo QQc QQc_field a (qqc_int 2) N).
by rewrite -{2}H qr_mul qr_int zr_2 mulfK // n2.
Qed.
Lemma qr_mid a b : qr (q_mid a b) = (qr a + qr b) / 2%:R. Proof. by rewrite /q_mid qr_half qr_add. Qed.
Lemma qr_q_half : qr q_half = 2%:R^-1. Proof. by rewrite /q_half qr_half qr_int zr_1 mul1r. Qed.

Lemma cpow_qr a n : qr (cpow QQc a n) = qr a ^+ n.
Proof. elim: n => [|n IH]; first by rewrite /= qr_int zr_1 expr0. by rewrite /= qr_mul IH exprS. Qed.
Lemma qr_assign (G : uz) a : qr (uassign G a) = (tr G).[qr a].
Proof.
rewrite /uassign /u_assign. set o := csub QQc a a.
have : qr o = 0 by rewrite /o /= qr_sub subrr. move: o.
have H : forall o, qr (fold_left (fun o t => cadd QQc o (cmul QQc (snd t) (cpow QQc a (Z.to_nat (fst t))))) (map (fun t : Z * Z => (fst t, qqc_int (snd t))) G) o) = qr o + (tr G).[qr a].
  elim: G => [|[e c] G IH] o; first by rewrite tr_nil horner0 addr0.
  rewrite /= IH. rewrite qr_add qr_mul qr_int cpow_qr tr_cons hornerD hornerZ hornerXn addrA. by [].
move=> o E. by rewrite H E add0r.
Qed.
Lemma is_root_ok G a : is_root G a = ((tr G).[qr a] == 0).
Proof. by rewrite /is_root qr_eqb qr_assign qr_int zr_0. Qed.

(** ** One step *)
Definition nsame (G : uz) := same (moeb (dg G) (tr G)).
Definition none1 (G : uz) := one (moeb (dg G) (tr G)).
Lemma to_inf_v G : upoly G -> exists2 g, to_inf G = Ok g & (coeffsignchanges g = 0%N <-> nsame G) /\ ((coeffsignchanges g <= 1)%N <-> none1 G).
Proof.
move=> [N [_ D]]. have [g E [Ng Eg]] := to_inf_ok R N D. exists g => //. rewrite /nsame /none1 -Eg. split; [exact: signs0|exact: signs1].
Qed.

Definition seen (F : {poly R}) (G : uz) (B E : qqc) : Prop :=
  upoly G /\ qr B < qr E /\ exists2 s, 0 < s & tr G = aff s (qr B) (qr E - qr B) F.

Lemma seen_size F G B E : seen F G B E -> (size (tr G) <= (dg G).+1)%N /\ tr G != 0.
Proof. move=> [[N [H _]] _]. split; [exact: tr_size_le|exact: tr_neq0]. Qed.
Lemma seen_root F G B E x : seen F G B E -> ((tr G).[(x - qr B) / (qr E - qr B)] == 0) = (F.[x] == 0).
Proof.
move=> [_ [L [s s0 ->]]]. rewrite aff_horner mulf_eq0 (gt_eqF s0) /=. congr (F.[_] == 0). rewrite mulrC divfK ?subr_eq0 ?gt_eqF //. by rewrite addrC subrK.
Qed.
Lemma seen_in F G B E x : seen F G B E -> qr B < x -> x < qr E -> 0 < (x - qr B) / (qr E - qr B) /\ (x - qr B) / (qr E - qr B) < 1.
Proof.
move=> [_ [L _]] H1 H2. have P : 0 < qr E - qr B by rewrite subr_gt0.
rewrite divr_gt0 ?subr_gt0 // ltr_pdivr_mulr // mul1r ltr_add2r. by [].
Qed.
Lemma seen_out F G B E y : seen F G B E -> 0 < y -> y < 1 -> (tr G).[y] = 0 -> exists x, [/\ qr B < x, x < qr E & F.[x] = 0].
Proof.
move=> [_ [L [s s0 ->]]] y0 y1. rewrite aff_horner => /eqP. rewrite mulf_eq0 (gt_eqF s0) /= => /eqP H.
have P : 0 < qr E - qr B by rewrite subr_gt0. exists (qr B + (qr E - qr B) * y). split=> //.
- by rewrite ltr_addl mulr_gt0.
- rewrite -[X in _ < X](subrK (qr B)) addrC ltr_add2r. by rewrite -[X in _ < X]mulr1 ltr_pmul2l.
Qed.
Lemma seen_none F G B E : seen F G B E -> nsame G -> forall x, qr B < x -> x < qr E -> F.[x] != 0.
Proof.
move=> S H x H1 H2. rewrite -(seen_root x S). have [A P] := seen_size S. have [X0 X1] := seen_in S H1 H2. exact: no_root A P H X0 X1.
Qed.
Lemma seen_uniq F G B E : seen F G B E -> none1 G -> forall x y, qr B < x -> x < qr E -> qr B < y -> y < qr E -> F.[x] = 0 -> F.[y] = 0 -> x = y.
Proof.
move=> S H x y x1 x2 y1 y2 /eqP. rewrite -(seen_root x S) => /eqP X /eqP. rewrite -(seen_root y S) => /eqP Y.
have [A P] := seen_size S. have [X0 X1] := seen_in S x1 x2. have [Y0 Y1] := seen_in S y1 y2.
have := root_unique A P H X0 X1 Y0 Y1 X Y. case: S => _ [L _]. move/divIf. rewrite subr_eq0 (gt_eqF L) => /(_ isT) /addIr. by [].
Qed.
Lemma seen_exists F G B E : seen F G B E -> none1 G -> ~ nsame G -> exists x, [/\ qr B < x, x < qr E & F.[x] = 0].
Proof.
move=> S H NS. have [A P] := seen_size S. have [y [y0 y1 Y]] := root_exists A H NS. exact: seen_out S y0 y1 Y.
Qed.
Add Field Rf : (tfield R).
Lemma half_1 (a b : R) : (a + b) / 2%:R - a = (b - a) / 2%:R.
Proof. have H := n2 R. rewrite mulr2n in H *. move/eqP: H => H. tfold R. field. exact: H. Qed.
Lemma half_2 (a b : R) : b - (a + b) / 2%:R = (b - a) / 2%:R.
Proof. have H := n2 R. rewrite mulr2n in H *. move/eqP: H => H. tfold R. field. exact: H. Qed.
Lemma half_3 (a b : R) : a + (b - a) / 2%:R = (a + b) / 2%:R.
Proof. have H := n2 R. rewrite mulr2n in H *. move/eqP: H => H. tfold R. field. exact: H. Qed.
Lemma mid_in (a b : R) : a < b -> a < (a + b) / 2%:R /\ (a + b) / 2%:R < b.
Proof. move=> H. by have [-> ->] := midf_lt H. Qed.
Lemma seen_half F G B E m : seen F G B E -> qr m = (qr B + qr E) / 2%:R -> is_root G q_half = (F.[qr m] == 0).
Proof.
move=> S Em. rewrite is_root_ok -(seen_root (qr m) S) qr_q_half. congr (_.[_] == 0). case: S => _ [L _].
have P : qr E - qr B != 0 by rewrite subr_eq0 gt_eqF. rewrite Em.
by rewrite half_1 mulrAC mulfV // mul1r.
Qed.
Lemma seen_left F G B E m : seen F G B E -> qr m = (qr B + qr E) / 2%:R -> seen F (half_left G) B m /\ (none1 G -> none1 (half_left G)).
Proof.
move=> S Em. have [Z _] := seen_size S. case: S => -[N [Ne D]] [L [s s0 ES]]. have [N' [D' [E' Ne']]] := half_left_ok R N.
split.
- split; first by split=> //; split; [move/Ne'|rewrite D'].
  split; first by rewrite Em; apply: (proj1 (mid_in L)).
  exists (2%:R ^+ (dg G) * s); first by rewrite mulr_gt0 // exprn_gt0 // ltr0n.
  rewrite E' ES lh_aff Em. by rewrite half_1.
- rewrite /none1 E' /dg D' -/(dg G). exact: one_lh.
Qed.
Lemma seen_right F G B E m : seen F G B E -> qr m = (qr B + qr E) / 2%:R ->
  exists2 Gr, half_right G = Ok Gr & seen F Gr m E /\ (none1 G -> none1 Gr).
Proof.
move=> S Em. have [Z _] := seen_size S. case: S => -[N [Ne D]] [L [s s0 ES]]. have [Gr H [N' E']] := half_right_ok R N D.
have [Ne' D'] := half_right_deg N Ne N' E'. exists Gr => //. split.
- split; first by split=> //; split; [|rewrite D'].
  split; first by rewrite Em; apply: (proj2 (mid_in L)).
  exists (2%:R ^+ (dg G) * s); first by rewrite mulr_gt0 // exprn_gt0 // ltr0n.
  rewrite E' ES rh_aff. by rewrite half_3 Em half_2.
- rewrite /none1 E' /dg D' -/(dg G). exact: one_rh.
Qed.

(** ** uspensky_shrink *)
Definition iso (Rt : R -> Prop) (a b r : R) : Prop :=
  Rt r /\ ((a = r /\ b = r) \/ [/\ a < r, r < b, b - a < 1 & forall x, a <= x -> x <= b -> Rt x -> x = r]).

Lemma shrink_ok fuel F G B E (lb rb b' : bool) B' E' r : seen F G B E -> none1 G -> (lb -> F.[qr B] != 0) -> (rb -> F.[qr E] != 0) ->
  qr B < r -> r < qr E -> F.[r] = 0 ->
  shrink fuel G B E lb rb = Ok (b', B', E') ->
  b' = true /\ iso (fun x => F.[x] = 0) (qr B') (qr E') r /\ qr B <= qr B' /\ qr E' <= qr E /\ (lb || (qr B < qr B')) /\ (rb || (qr E' < qr E)).
Proof.
elim: fuel G B E lb rb b' B' E' => [|fuel IH] G B E lb rb b' B' E' S H1 Hl Hr r1 r2 r0 //=.
have [g -> [V0 V1]] /= := to_inf_v (proj1 S).
case: (Nat.eqb_spec (coeffsignchanges g) 0) => C0.
  exfalso. have := seen_none S (proj1 V0 C0) r1 r2. by rewrite r0 eqxx.
have L : qr B < qr E := proj1 (proj2 S).
case: ifP => T.
- move/andP: T => [T /andP [Tl Tr]] [<- <- <-]. rewrite Tl Tr. split=> //. split; last by [].
  split=> //. right. split=> //.
  + move: T. by rewrite qr_ltb qr_sub qr_int zr_1.
  + move=> x x1 x2 X. have Bx : qr B < x. { rewrite lt_neqAle x1 andbT. apply/eqP => Ex. have := Hl Tl. by rewrite Ex X eqxx. }
    have xE : x < qr E. { rewrite lt_neqAle x2 andbT. apply/eqP => Ex. have := Hr Tr. by rewrite -Ex X eqxx. }
    exact: seen_uniq S H1 _ _ Bx xE r1 r2 X r0.
- have Em : qr (q_mid E B) = (qr B + qr E) / 2%:R by rewrite qr_mid addrC.
  have [m1 m2] := mid_in L. rewrite -Em in m1 m2.
  rewrite (seen_half S Em). case: ifP => R0.
    move=> [<- <- <-]. split=> //. have Er : qr (q_mid E B) = r by apply: (seen_uniq S H1) => //; apply/eqP.
    rewrite m1 m2 !orbT !ltW //. split=> //. split=> //. left. by rewrite Er.
  have [SL oneL] := seen_left S Em. have [Gr EGr [SR oneR]] := seen_right S Em.
  have Mn : F.[qr (q_mid E B)] != 0 by rewrite R0.
  case ES: (shrink fuel (half_left G) B (q_mid E B) lb true) => [[[b1 B1] m1']| | |] //=.
  case: (ltgtP r (qr (q_mid E B))) => Lr; last by move: R0; rewrite -Lr r0 eqxx.
  + have [Eb [I1 [I2 [I3 [I4 I5]]]]] := IH _ _ _ _ _ _ _ _ SL (oneL H1) Hl (fun _ => Mn) r1 Lr r0 ES.
    rewrite Eb => -[<- <- <-]. split=> //. split=> //. split=> //. split; first by apply: le_trans I3 (ltW m2). split=> //.
    by rewrite (le_lt_trans I3 m2) orbT.
  + have Eb : b1 = false /\ m1' = q_mid E B.
      move: ES. case: fuel {IH} => [|fuel] //=. have [gl -> [W0 W1]] /= := to_inf_v (proj1 SL).
      case: (Nat.eqb_spec (coeffsignchanges gl) 0) => D0; first by move=> [<- _ <-].
      exfalso. have [x [x1 x2 X]] := seen_exists SL (oneL H1) (fun Q => D0 (proj2 W0 Q)).
      have E1 := seen_uniq S H1 x1 (lt_trans x2 m2) r1 r2 X r0. by move: (lt_trans x2 Lr); rewrite E1 ltxx.
    case: Eb => -> -> /=. rewrite EGr /=.
    case ES2: (shrink fuel Gr (q_mid E B) E true rb) => [[[b2 m2'] E2]| | |] //= -[<- <- <-].
    have [Eb [I1 [I2 [I3 [I4 I5]]]]] := IH _ _ _ _ _ _ _ _ SR (oneR H1) (fun _ => Mn) Hr Lr r2 r0 ES2.
    split=> //. split=> //. split; first by apply: le_trans (ltW m1) I2. split=> //. split=> //.
    by rewrite (lt_le_trans m1 I2) orbT.
Qed.
End R.
