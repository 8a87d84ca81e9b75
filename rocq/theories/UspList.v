(** * Isolating lists, and correctness of subuspensky (realroot.cc 91-114, 436-493). *)
From Verif Require Import Prelude Coef Spec SpecProofs GcdPoly GcdProofs MonoStruct MonoStructProofs OrderSpec PairVec PairVecProofs Heap Poly
  PolyMulProofs PolyOps ConvertProofs QQ NumSpec QQProofs UGcdBase Uspensky RootBound.
From mathcomp Require Import all_ssreflect all_algebra ssrZ polyrcf.
From Verif Require Import UspMath UspBase UspTrans UspIso.
Import Order.TTheory GRing.Theory Num.Theory.
Set Implicit Arguments.
Unset Strict Implicit.
Local Open Scope ring_scope.
Delimit Scope Z_scope with CZ.

Section L.
Variable R : rcfType.
Variable (T : Type) (lo hi : T -> R).
Implicit Types (Rt : R -> Prop) (Lab : T -> R -> Prop).

(** the intervals are in increasing order between B and E and do not overlap *)
Fixpoint chain (B : R) (l : list T) (E : R) : Prop :=
  match l with
  | [::] => B <= E
  | t :: l' => [/\ B <= lo t, lo t <= hi t & chain (hi t) l' E]
  end.
Definition isolating Rt Lab (B E : R) (l : list T) : Prop :=
  exists rs : seq R, [/\ sorted <%R rs, (forall x, x \in rs <-> [/\ B < x, x < E & Rt x]),
    List.Forall2 (fun t r => iso Rt (lo t) (hi t) r /\ Lab t r) l rs & chain B l E].

Lemma chain_cat B m E l1 l2 : chain B l1 m -> chain m l2 E -> chain B (l1 ++ l2) E.
Proof.
elim: l1 B => [|t l1 IH] B /=; last by move=> [H1 H2 H3] H; split=> //; exact: IH.
case: l2 => [|t l2] /= H; first exact: le_trans. move=> [H1 H2 H3]. split=> //. exact: le_trans H1.
Qed.
Lemma chain_le B E l : chain B l E -> B <= E.
Proof. elim: l B => [|t l IH] B //= [H1 H2 /IH H3]. by apply: le_trans H1 (le_trans H2 H3). Qed.
Lemma sorted_cat3 (rs1 rs2 : seq R) (m : R) : sorted <%R rs1 -> sorted <%R rs2 -> (forall x, x \in rs1 -> x < m) -> (forall x, x \in rs2 -> m < x) ->
  sorted <%R (rs1 ++ rs2) /\ sorted <%R (rs1 ++ m :: rs2).
Proof.
move=> S1 S2 H1 H2. rewrite !(sorted_pairwise lt_trans) !pairwise_cat /= -!(sorted_pairwise lt_trans) S1 S2 !andbT.
have A : allrel <%R rs1 rs2 by apply/allrelP => x y /H1 X /H2 Y; exact: lt_trans X Y.
split=> //. apply/andP. split; last by apply/allP.
by rewrite allrel_consr A andbT; apply/allP.
Qed.
Lemma iso_nil Rt Lab B E : B <= E -> (forall x, B < x -> x < E -> ~ Rt x) -> isolating Rt Lab B E [::].
Proof. move=> L H. exists [::]. split=> //. move=> x. rewrite in_nil. split=> // -[A C X]. by case: (H x A C X). Qed.
Lemma iso_one Rt Lab B E t r : B < r -> r < E -> (forall x, B < x -> x < E -> Rt x -> x = r) -> iso Rt (lo t) (hi t) r -> Lab t r ->
  B <= lo t -> hi t <= E -> isolating Rt Lab B E [:: t].
Proof.
move=> r1 r2 U I Lt H1 H2. exists [:: r]. split=> //.
- move=> x. rewrite inE. split; first by move/eqP=> ->; split=> //; case: I. move=> [A C X]. apply/eqP. exact: U.
- constructor=> //.
- split=> //. case: I => _ [[-> ->] //|[A C _ _]]. exact: ltW (lt_trans A C).
Qed.
Lemma iso_cat Rt Lab B m E l1 l2 : isolating Rt Lab B m l1 -> isolating Rt Lab m E l2 -> B < m -> m < E -> ~ Rt m -> isolating Rt Lab B E (l1 ++ l2).
Proof.
move=> [rs1 [S1 M1 F1 C1]] [rs2 [S2 M2 F2 C2]] L1 L2 Nm. exists (rs1 ++ rs2).
have [X _] := @sorted_cat3 rs1 rs2 m S1 S2 (fun x H => match proj1 (M1 x) H with And3 _ A _ => A end) (fun x H => match proj1 (M2 x) H with And3 A _ _ => A end).
split=> //; [|exact: List.Forall2_app|exact: chain_cat C1 C2].
move=> x. rewrite mem_cat. split.
- move/orP => [/M1 [A C D]|/M2 [A C D]]; split=> //; [exact: lt_trans C L2|exact: lt_trans L1 A].
- move=> [A C D]. apply/orP. case: (ltgtP x m) => Lx; [left|right|by case: Nm; rewrite -Lx]; [by apply/M1|by apply/M2].
Qed.
Lemma iso_cat3 Rt Lab B m E l1 t l2 : isolating Rt Lab B m l1 -> isolating Rt Lab m E l2 -> B < m -> m < E -> Rt m -> lo t = m -> hi t = m -> Lab t m ->
  isolating Rt Lab B E (l1 ++ t :: l2).
Proof.
move=> [rs1 [S1 M1 F1 C1]] [rs2 [S2 M2 F2 C2]] L1 L2 Hm El Eh HL. exists (rs1 ++ m :: rs2).
have [_ X] := @sorted_cat3 rs1 rs2 m S1 S2 (fun x H => match proj1 (M1 x) H with And3 _ A _ => A end) (fun x H => match proj1 (M2 x) H with And3 A _ _ => A end).
split=> //.
- move=> x. rewrite mem_cat inE. split.
  + move/orP => [/M1 [A C D]|/orP [/eqP -> //|/M2 [A C D]]]; split=> //; [exact: lt_trans C L2|exact: lt_trans L1 A].
  + move=> [A C D]. apply/orP. case: (ltgtP x m) => Lx; [left|right|right]; [by apply/M1|by apply/orP; right; apply/M2|by apply/orP; left; apply/eqP].
- apply: List.Forall2_app => //. constructor=> //. split=> //. split=> //. left. by rewrite El Eh.
- apply: chain_cat C1 _. by rewrite /= El Eh lexx.
Qed.
End L.

(** The reflection x -> -x *)
Lemma forall2_rev {A B} (P : A -> B -> Prop) l r : List.Forall2 P l r -> List.Forall2 P (List.rev l) (List.rev r).
Proof. elim=> [|x y l' r' H _ IH] //=. apply: List.Forall2_app => //. by constructor. Qed.
Lemma forall2_map {A B A' B'} (P : A -> B -> Prop) (Q : A' -> B' -> Prop) (f : A -> A') (g : B -> B') l r :
  (forall a b, P a b -> Q (f a) (g b)) -> List.Forall2 P l r -> List.Forall2 Q (List.map f l) (List.map g r).
Proof. move=> H. elim=> [|x y l' r' K _ IH] //=; constructor=> //. exact: H. Qed.

Section Neg.
Variable R : rcfType.
Variables (T : Type) (lo hi : T -> R) (neg : T -> T).
Hypothesis Hlo : forall t, lo (neg t) = - hi t.
Hypothesis Hhi : forall t, hi (neg t) = - lo t.
Lemma chain_neg B E l : chain lo hi B l E -> chain lo hi (- E) (List.map neg (List.rev l)) (- B).
Proof.
elim: l B => [|t l IH] B /=; first by rewrite ler_opp2. move=> [H1 H2 /IH H3]. rewrite List.map_app. apply: chain_cat H3 _. by rewrite /= Hlo Hhi !ler_opp2.
Qed.
Lemma iso_neg (Rt Rt' : R -> Prop) (Lab Lab' : T -> R -> Prop) B E l : (forall x, Rt' x <-> Rt (- x)) -> (forall t x, Lab' t x -> Lab (neg t) (- x)) ->
  isolating lo hi Rt' Lab' B E l -> isolating lo hi Rt Lab (- E) (- B) (List.map neg (List.rev l)).
Proof.
move=> HR HL [rs [S M F C]]. exists (map -%R (rev rs)). split.
- rewrite sorted_map rev_sorted. apply: sub_sorted S => x y /= H. by rewrite ltr_opp2.
- move=> x. rewrite -[x in x \in _]opprK mem_map; last exact: oppr_inj. rewrite mem_rev.
  have HX : Rt' (- x) <-> Rt x by rewrite HR opprK.
  split=> [/M [A D X]|[A D X]]; [|apply/M]; split; rewrite 1?ltr_oppr 1?ltr_oppl //; try exact/HX; by rewrite ?ltr_oppr // ltr_oppl.
- have -> : map -%R (rev rs) = List.map (fun x => - x) (List.rev rs).
    elim: rs {S M F} => [|r rs IH] //. rewrite rev_cons map_rcons IH /= List.map_app -cats1. by [].
  apply: forall2_map (forall2_rev F) => t r [[Hr I] Hl]. split; last exact: HL. split; first exact/HR. rewrite Hlo Hhi.
  case: I => [[-> ->]|[A D W U]]; [left|right]; [by []|]. split; rewrite ?ltr_opp2 //; first by rewrite opprK addrC.
  move=> x x1 x2 X. rewrite -(opprK x). congr (- _). apply: U; [by rewrite ler_oppr|by rewrite ler_oppl|by apply/HR; rewrite opprK].
- exact: chain_neg.
Qed.
End Neg.

(** ** The single-polynomial version *)
Section One.
Variable R : rcfType.
Definition ilo (t : qqc * qqc) : R := qr R t.1.
Definition ihi (t : qqc * qqc) : R := qr R t.2.
Notation iso1 F := (isolating ilo ihi (fun x => (F : {poly R}).[x] = 0) (fun _ _ => True)).

Lemma qr_mid_in (B E : qqc) : qr R B < qr R E -> qr R B < qr R (q_mid B E) /\ qr R (q_mid B E) < qr R E.
Proof. move=> L. rewrite qr_mid. exact: mid_in. Qed.

Lemma subuspensky_ok fuel (F : {poly R}) G l B E l' : seen F G B E -> subuspensky fuel G l B E = Ok l' ->
  exists2 l0, l' = l ++ l0 & iso1 F (qr R B) (qr R E) l0.
Proof.
elim: fuel G l B E l' => [|fuel IH] G l B E l' S //=.
have [g -> [V0 V1]] /= := to_inf_v R (proj1 S). have L : qr R B < qr R E := proj1 (proj2 S).
case: (Nat.eqb_spec (coeffsignchanges g) 0) => C0.
  move=> [<-]. exists [::]; first by rewrite cats0. apply: iso_nil; first exact: ltW.
  move=> x x1 x2 /eqP X. have := seen_none S (proj1 V0 C0) x1 x2. by rewrite X.
case: (Nat.eqb_spec (coeffsignchanges g) 1) => C1.
  have H1 : none1 R G by apply/V1; rewrite C1.
  have [r [r1 r2 r0]] := seen_exists S H1 (fun Q => C0 (proj2 V0 Q)).
  case ES: (shrink fuel G B E false false) => [[[b B1] E1]| | |] //= -[<-]. exists [:: (B1, E1)] => //.
  have [_ [I [I2 [I3 _]]]] := shrink_ok S H1 (fun e : false = true => False_ind _ (Bool.diff_false_true e)) (fun e : false = true => False_ind _ (Bool.diff_false_true e)) r1 r2 r0 ES.
  apply: (iso_one (r := r)) => //. move=> x x1 x2 X. exact: seen_uniq S H1 _ _ x1 x2 r1 r2 X r0.
have [m1 m2] := qr_mid_in L. have Em : qr R (q_mid B E) = (qr R B + qr R E) / 2%:R by rewrite qr_mid.
case E1: (subuspensky fuel (half_left G) l B (q_mid B E)) => [l1| | |] //=.
have [SL _] := seen_left S Em. have [Gr EGr [SR _]] := seen_right S Em. rewrite EGr /=.
have [l1' -> I1] := IH _ _ _ _ _ SL E1.
rewrite (seen_half S Em). case: eqP => M0 E2.
- have [l2' -> I2] := IH _ _ _ _ _ SR E2. exists (l1' ++ (q_mid B E, q_mid B E) :: l2'); first by rewrite -!catA.
  apply: (iso_cat3 I1 I2) => //.
- have [l2' -> I2] := IH _ _ _ _ _ SR E2. exists (l1' ++ l2'); first by rewrite -!catA.
  apply: (iso_cat I1 I2) => //.
Qed.
End One.
