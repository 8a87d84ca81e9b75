(** * C47: realroot of a list of integer polynomials (realroot.hh 61-103).

    As in Props_Basis.v: [ps] is any sequence of primes, [rnd] any sequence of evaluation points.  The specification is in
    RealrootSpec.v, with [holds_root] from Props_Root.v and [recorded] from Props_Basis.v. *)
From Coq Require Import Znumtheory.
From Verif Require Import Prelude Coef Spec SpecProofs GcdDom GcdPoly GcdMath OrderSpec PairVec PairVecProofs
  Mono MonoProofs MonoStruct MonoStructProofs Heap Poly PolyMulProofs Div PolyDivProofs PolyOps MonoOpsProofs PolyOpsGen PolyOpsProofs
  Groebner Zp NumSpec ZpProofs QQ QQProofs Gcd GcdProofs GcdMain Sqf Library LibraryProofs SortProofs Props_Poly Props_Div Props_Ops Props_Gcd SqfBasis SqfBasisProofs Props_Basis
  Uspensky Uroot Realroot RealrootBase.
From mathcomp Require Import all_ssreflect all_algebra ssrZ polyrcf realalg.
From Verif Require Import UspTop Props_Real Props_Root RealrootSpec RealrootProofs.
Import Order.TTheory GRing.Theory Num.Theory.
Set Implicit Arguments.
Unset Strict Implicit.
Local Open Scope ring_scope.
Delimit Scope Z_scope with CZ.
Local Notation mraw := (MonoStruct.graw sm).

(** the answer [l] for the inputs [F]: the increasing list of all real roots of non-zero elements of F, each with its
    multiplicity in every element *)
Definition is_answer (R : rcfType) (F : list (Mono.poly Z)) (l : list (uroot * occurrences)) : Prop :=
  exists rs : seq R, [/\ sorted <%R rs, (forall x, x \in rs <-> exists f, [/\ List.In f F, f <> [::] & polyvalue f x = 0]) &
    List.Forall2 (fun t r => holds_root t.1 r /\
      forall k f, List.nth_error F k = Some f -> f <> [::] -> root_multiplicity f r (recorded k t.2)) l rs].

Section Generic.
Context (vo : vorder) (Hvo : vorder_ok vo) (S : monos mono) (HS : S = lexS vo \/ S = grlexS vo) (usrt : list (Z * Z) -> list (Z * Z)).
Local Notation norm := (normal (mok vo) (m_gt S) Zc).
Variable sfb : list (Mono.poly Z) -> outcome basis.
Variable F : list (Mono.poly Z).
Hypothesis HF : forall f, List.In f F -> norm f /\ forall t, List.In t f -> (mg (fst t) < 2 ^ 62 - 1)%CZ.
Hypothesis HB : forall B, sfb F = Ok B -> is_squarefree_basis norm F B.
Lemma F_norm : List.Forall norm F.
Proof. apply/List.Forall_forall => f I. by have [] := HF I. Qed.
Lemma realroot_ok (R : rcfType) fuel l : realroot vo usrt sfb fuel F = Ok l -> is_answer R F l.
Proof.
rewrite /realroot. have NF := F_norm. case EF: F => [|f0 F0]; first by move=> [<-]; exists [::]; split=> //; move=> x; split=> // -[f []].
rewrite -EF. case E1: (Nat.ltb _ _) => //. have L : (length (get_variables_list vo F) <= 1)%coq_nat by move/PeanoNat.Nat.ltb_ge: E1.
have [v HV] := one_variable vo Hvo S F NF L. case EB: (sfb F) => [B| | |] //=. case EU: (uspensky_v fuel _) => [l'| | |] //= [<-].
exact: (realroot_basis_ok R Hvo HS HF HV (HB EB) EU).
Qed.
Lemma realroot_terminates B : sfb F = Ok B -> (length (get_variables_list vo F) <= 1)%coq_nat ->
  exists N l, forall fuel, (N <= fuel)%N -> realroot vo usrt sfb fuel F = Ok l.
Proof.
move=> EB L. have NF := F_norm. have [v HV] := one_variable vo Hvo S F NF L.
have Up : forall g, List.In g (List.map (fun t : Mono.poly Z * occurrences => to_upoly Zc usrt t.1) B) -> upolynomial g.
  move=> g I. by have [] := Gs_up [rcfType of realalg] Hvo HS HF HV (HB EB) I.
have [N [l H]] := C36_terminates Up (Gs_sqf [rcfType of realalg] Hvo HS HF HV (HB EB) (usrt := usrt)) (Gs_co [rcfType of realalg] Hvo HS HF HV (HB EB) (usrt := usrt)).
exists N. exists (match F with [::] => [::] | _ => List.map (fun t : item => (Uroot (List.nth t.2 (List.map (fun t => to_upoly Zc usrt (fst t)) B) [::]) t.1.1 t.1.2, List.nth t.2 (List.map snd B) [::])) l end).
move=> fuel Hf. rewrite /realroot. case EF: F => [|f0 F0] //. rewrite -EF.
have -> : Nat.ltb 1 (length (get_variables_list vo F)) = false by apply/PeanoNat.Nat.ltb_ge. rewrite EB /=. by rewrite (H fuel Hf).
Qed.
Lemma realroot_throws fuel f t v g u w : List.In f F -> List.In t f -> zexp (fst t) v <> 0%CZ -> List.In g F -> List.In u g -> zexp (fst u) w <> 0%CZ -> v <> w ->
  realroot vo usrt sfb fuel F = Throw.
Proof.
move=> If It Ht Ig Iu Hu N. have L := two_variables vo Hvo S F f t v g u w F_norm If It Ht Ig Iu Hu N. rewrite /realroot.
case EF: F If => [|f0 F0] // _. rewrite -EF. by have -> : Nat.ltb 1 (length (get_variables_list vo F)) = true by apply/PeanoNat.Nat.ltb_lt.
Qed.
End Generic.

(** ** lexicographic orders *)
Section Lex.
Context (vo : vorder) (HL : lib_vorder vo) (usrt : list (Z * Z) -> list (Z * Z)).
Variable msrt : list (var * Z) -> list (var * Z).
Variable srt : forall C : Type, Mono.poly C -> Mono.poly C.
Variable mcomp qcomp : Mono.poly Z -> Mono.poly Z -> outcome (option (Mono.poly Z)).
Variable rcomp : Mono.poly Z -> Mono.poly Z -> outcome (option (Mono.poly Z * Mono.poly Z)).
Variable zcomp : forall p (Hp : modulus p), Mono.poly (zpc p) -> Mono.poly (zpc p) -> outcome (option (Mono.poly (zpc p) * Mono.poly (zpc p))).
Variable ps : nat -> pmod.
Variable rnd : Gcd.path -> nat -> Z.
Context (Env : gcd_env vo msrt srt mcomp qcomp rcomp zcomp ps).
Variables (fuel0 : nat) (pa : Gcd.path) (F : list (Mono.poly Z)).
(** polynomials of the order; the variable 0 stands for "no variable" in the library; total degrees below 2^62-1 *)
Hypothesis HF : forall f, List.In f F -> [/\ npoly vo f, vfree Zc 0%num (mraw f) & forall t, List.In t f -> (mg (fst t) < 2 ^ 62 - 1)%CZ].
Local Notation sfb := (squarefreebasis vo msrt srt mcomp qcomp rcomp zcomp ps rnd fuel0 pa).
Let HF1 : forall f, List.In f F -> normal (mok vo) (m_gt (lexS vo)) Zc f /\ forall t, List.In t f -> (mg (fst t) < 2 ^ 62 - 1)%CZ.
Proof. by move=> f /HF []. Qed.
Let HF2 : forall f, List.In f F -> npoly vo f /\ vfree Zc 0%num (mraw f).
Proof. by move=> f /HF []. Qed.
Let HB : forall B, sfb F = Ok B -> is_squarefree_basis (normal (mok vo) (m_gt (lexS vo)) Zc) F B.
Proof. move=> B E. exact: (proj1 (C46_squarefree_basis vo HL msrt srt mcomp qcomp rcomp zcomp ps rnd Env fuel0 pa F B HF2 E)). Qed.

Theorem C47_realroot (R : rcfType) fuel l : realroot vo usrt sfb fuel F = Ok l -> is_answer R F l.
Proof. exact: (realroot_ok (lib_vorder_ok vo HL) (or_introl erefl) HF1 HB). Qed.
(** the call returns as soon as squarefreebasis does *)
Theorem C47_terminates B : sfb F = Ok B -> (length (get_variables_list vo F) <= 1)%coq_nat ->
  exists N l, forall fuel, (N <= fuel)%N -> realroot vo usrt sfb fuel F = Ok l.
Proof. exact: (realroot_terminates (lib_vorder_ok vo HL) (or_introl erefl) usrt HF1 HB). Qed.
Theorem C47_two_variables fuel f t v g u w : List.In f F -> List.In t f -> zexp (fst t) v <> 0%CZ -> List.In g F -> List.In u g -> zexp (fst u) w <> 0%CZ -> v <> w ->
  realroot vo usrt sfb fuel F = Throw.
Proof. exact: (realroot_throws (lib_vorder_ok vo HL) usrt sfb HF1). Qed.
End Lex.
Print Assumptions C47_realroot.
Print Assumptions C47_terminates.
Print Assumptions C47_two_variables.

(** ** the other orders (squarefreebasis converts to lex and back) *)
Section Others.
Context (vo2 : vorder) (S2 : monos mono) (HP : lib_poly vo2 S2) (usrt : list (Z * Z) -> list (Z * Z)).
Variable msrt : list (var * Z) -> list (var * Z).
Variable srt : forall C : Type, Mono.poly C -> Mono.poly C.
Variable mcomp qcomp : Mono.poly Z -> Mono.poly Z -> outcome (option (Mono.poly Z)).
Variable rcomp : Mono.poly Z -> Mono.poly Z -> outcome (option (Mono.poly Z * Mono.poly Z)).
Variable zcomp : forall p (Hp : modulus p), Mono.poly (zpc p) -> Mono.poly (zpc p) -> outcome (option (Mono.poly (zpc p) * Mono.poly (zpc p))).
Variable ps : nat -> pmod.
Variable rnd : Gcd.path -> nat -> Z.
Variable msrt2 : list (var * Z) -> list (var * Z).
Variable srt2 : Mono.poly Z -> Mono.poly Z.
Context (Env : gcd_env vless msrt srt mcomp qcomp rcomp zcomp ps).
Context (Hm2 : msort_ok vo2 msrt2) (Hs2 : sort_ok (mok vo2) (m_gt S2) srt2).
Variables (fuel0 : nat) (pa : Gcd.path) (F : list (Mono.poly Z)).
Hypothesis HF : forall f, List.In f F -> [/\ normal (mok vo2) (m_gt S2) Zc f, vfree Zc 0%num (mraw f) & forall t, List.In t f -> (mg (fst t) < 2 ^ 62 - 1)%CZ].
Local Notation sfb := (squarefreebasis_any vo2 (m_gt S2) msrt srt mcomp qcomp rcomp zcomp ps rnd msrt2 srt2 fuel0 pa).
Let HF1 : forall f, List.In f F -> normal (mok vo2) (m_gt S2) Zc f /\ forall t, List.In t f -> (mg (fst t) < 2 ^ 62 - 1)%CZ.
Proof. by move=> f /HF []. Qed.
Let HF2 : forall f, List.In f F -> normal (mok vo2) (m_gt S2) Zc f /\ vfree Zc 0%num (mraw f).
Proof. by move=> f /HF []. Qed.
Let HB : forall B, sfb F = Ok B -> is_squarefree_basis (normal (mok vo2) (m_gt S2) Zc) F B.
Proof. move=> B E. exact: (proj1 (C46_squarefree_basis_other_orders vo2 S2 HP msrt srt mcomp qcomp rcomp zcomp ps rnd msrt2 srt2 Env Hm2 Hs2 fuel0 pa F B HF2 E)). Qed.

Theorem C47_realroot_other_orders (R : rcfType) fuel l : realroot vo2 usrt sfb fuel F = Ok l -> is_answer R F l.
Proof. exact: (realroot_ok (lib_vorder_ok vo2 (proj1 HP)) (proj2 HP) HF1 HB). Qed.
(** the call returns as soon as squarefreebasis does *)
Theorem C47_terminates_other_orders B : sfb F = Ok B -> (length (get_variables_list vo2 F) <= 1)%coq_nat ->
  exists N l, forall fuel, (N <= fuel)%N -> realroot vo2 usrt sfb fuel F = Ok l.
Proof. exact: (realroot_terminates (lib_vorder_ok vo2 (proj1 HP)) (proj2 HP) usrt HF1 HB). Qed.
Theorem C47_two_variables_other_orders fuel f t v g u w : List.In f F -> List.In t f -> zexp (fst t) v <> 0%CZ -> List.In g F -> List.In u g -> zexp (fst u) w <> 0%CZ -> v <> w ->
  realroot vo2 usrt sfb fuel F = Throw.
Proof. exact: (realroot_throws (lib_vorder_ok vo2 (proj1 HP)) usrt sfb HF1). Qed.
End Others.
Print Assumptions C47_realroot_other_orders.
Print Assumptions C47_terminates_other_orders.
Print Assumptions C47_two_variables_other_orders.

(** ** The hypotheses are met: the roots of (x^2-1, x-1) are -1, a simple root of the first only, and 1, a simple root of both. *)
Definition shown_roots (l : outcome (list (uroot * occurrences))) : list (qq * qq * occurrences) :=
  match l with Ok l => List.map (fun t => match t.1 with Uroot _ a b => (proj1_sig a, proj1_sig b, t.2) end) l | _ => [::] end.
Example C47_ex_run : shown_roots (realroot vless (fun l => l) (ex_basis 20 [::]) 20 [:: ex_r; ex_q]) =
  [:: ({| qnum := -1; qden := 1 |}, {| qnum := -1; qden := 1 |}, [:: (0%N, 1%N)]); ({| qnum := 1; qden := 1 |}, {| qnum := 1; qden := 1 |}, [:: (0%N, 1%N); (1%N, 1%N)])].
Proof. by vm_compute. Qed.
Lemma shown_ok o a l : shown_roots o = a :: l -> exists l', o = Ok l'.
Proof. by case: o => [l'| | |] // _; exists l'. Qed.
Example C47_ex : exists l, realroot vless (fun l => l) (ex_basis 20 [::]) 20 [:: ex_r; ex_q] = Ok l /\ is_answer [rcfType of realalg] [:: ex_r; ex_q] l.
Proof.
have HF : forall f, List.In f [:: ex_r; ex_q] -> [/\ npoly vless f, vfree Zc 0%num (mraw f) & forall t, List.In t f -> (mg (fst t) < 2 ^ 62 - 1)%CZ].
  move=> f I. have I' : List.In f [:: ex_p; ex_q; ex_r] by move: I => [<-|[<-|[]]]; rewrite /=; auto. have [N V] := ex_pqr_ok f I'. split=> // t.
  by move: I => [<-|[<-|[]]] /= [<-|[<-|[]]].
have [l E] := shown_ok C47_ex_run.
exists l. refine (conj E _). unfold ex_basis in E. exact (C47_realroot lv_less ex_env HF [rcfType of realalg] E).
Qed.
