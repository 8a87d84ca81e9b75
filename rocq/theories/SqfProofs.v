(** * Squarefree factorization: product, squarefreeness (Sqf.v). *)
From Coq Require Import Ring_theory Ring Setoid Morphisms Znumtheory.
From Verif Require Import Prelude Coef Spec SpecProofs SpecOps SpecOpsProofs GcdDom GcdPoly GcdMath SqfMath OrderSpec PairVec PairVecProofs
  Mono MonoProofs MonoStruct MonoStructProofs Heap Poly PolyMulProofs Div PolyDivProofs PolyOps MonoOpsProofs PolyOpsGen PolyOpsProofs
  PolyOps2Proofs ConvertProofs PolyOps3Proofs Groebner Zp NumSpec ZpProofs Gcd GcdHom GcdLex GcdZpProofs GcdCont GcdRep GcdTerm GcdProofs GcdMain Sqf.
Local Open Scope Z_scope.

(** ** Units and constants among the integer polynomials *)
Section U.
Notation K := Zc.
Let HD : domain_ok K := Zc_domain.
Let HK : ring_ok K := domain_ring K HD.
Let HG : cgcd_ok K := Z_cgcd.
Local Existing Instance HK.
Add Ring Rring : (rring K HK) (setoid (req_equiv K) (rring_ext K HK)).
Notation "a == b" := (req K a b) (at level 70).
Notation "a %| b" := (rdivides K a b) (at level 70).
Lemma Z_char0 n : cnat K (Datatypes.S n) <> c0 K.
Proof.
  assert (E : forall n, cnat K n = Z.of_nat n) by (induction n0 as [|m IH]; [reflexivity|]; cbn [cnat]; rewrite IH; cbn [cadd c1 Zc]; lia).
  rewrite E. cbn. lia.
Qed.
Lemma unit_spec h : unit K h <-> exists c, h == rconst c /\ (c = 1 \/ c = -1).
Proof.
  split.
  - intros [e E]. symmetry in E. destruct (divisor_const K HD HG 1 h e ltac:(discriminate) E) as [H1 H2]. exists (coef K h []). split; [exact H1|].
    cbn [cmul Zc] in H2. assert (X : (coef K h [] | 1)) by (exists (coef K e []); exact H2). apply Z.divide_1_r in X. exact X.
  - intros (c & E & Hc). exists (rconst c). transitivity (rmul K (rconst c) (rconst c)); [|rewrite E; reflexivity].
    unfold r1. apply (req_single K); [intros v; reflexivity|]. cbn. destruct Hc as [-> | ->]; reflexivity.
Qed.
Lemma req_dec (p q : rpoly Z) : p == q \/ ~ p == q.
Proof.
  destruct (rzero_dec K HD (rsub K p q)) as [E|N].
  - left. transitivity (radd (rsub K p q) q); [ring|]. rewrite E. ring.
  - right. intros E. apply N. rewrite E. ring.
Qed.
Lemma Z_unit_dec h : unit K h \/ ~ unit K h.
Proof.
  destruct (req_dec h (rconst (coef K h []))) as [E|N].
  - destruct (Z.eq_dec (coef K h []) 1) as [E1|N1]; [left; apply unit_spec; eauto|].
    destruct (Z.eq_dec (coef K h []) (-1)) as [E2|N2]; [left; apply unit_spec; eauto|]. right. intros U. apply unit_spec in U as (c & Ec & Hc).
    rewrite (Ec []) in N1, N2. cbn [Spec.coef rconst] in N1, N2. cbn in N1, N2. lia.
  - right. intros U. apply unit_spec in U as (c & Ec & _). apply N. rewrite (Ec []). rewrite Ec at 1. cbn [Spec.coef rconst]. 
    apply (req_single K); [intros v; reflexivity|]. cbn. lia.
Qed.
End U.

(** product of the factors with their multiplicities, and without them *)
Definition rprod (l : list (rpoly Z * nat)) : rpoly Z := fold_right (fun t a => rmul Zc (rpow Zc (fst t) (snd t)) a) (r1 Zc) l.
Definition rrad (l : list (rpoly Z * nat)) : rpoly Z := fold_right (fun t a => rmul Zc (fst t) a) (r1 Zc) l.
Definition graws (l : list (poly Z * nat)) : list (rpoly Z * nat) := map (fun t => (graw sm (fst t), snd t)) l.

Section SP.
Context (vo : vorder) (Hvo : vorder_ok vo).
Notation K := Zc.
Let HD : domain_ok K := Zc_domain.
Let HK : ring_ok K := domain_ring K HD.
Let HG : cgcd_ok K := Z_cgcd.
Local Existing Instance HK.
Add Ring Rring2 : (rring K HK) (setoid (req_equiv K) (rring_ext K HK)).
Notation gt := (lex_gt vo).
Notation norm := (normal (mok vo) gt K).
Notation graw := (graw sm).
Notation poly := (poly Z).
Notation good := (good vo).
Notation "a == b" := (req K a b) (at level 70).
Notation "a %| b" := (rdivides K a b) (at level 70).
Notation unit := (unit K).
Let M1 := lexS_ok vo Hvo.

Lemma rprod_app l l' : rprod (l ++ l') == rmul K (rprod l) (rprod l').
Proof. unfold rprod. induction l as [|t l IH]; cbn [app fold_right]; [ring|]. rewrite IH. ring. Qed.
Lemma rrad_app l l' : rrad (l ++ l') == rmul K (rrad l) (rrad l').
Proof. unfold rrad. induction l as [|t l IH]; cbn [app fold_right]; [ring|]. rewrite IH. ring. Qed.
Lemma graws_app l l' : graws (l ++ l') = graws l ++ graws l'. Proof. apply map_app. Qed.

(** ** the derivative by the first variable *)
Lemma deriv_spec (p : poly) : good p -> good (p_derivative_lex K p) /\ graw (p_derivative_lex K p) == rderiv K (first_var p) (graw p).
Proof.
  intros [N V]. rewrite (derivative_lex_eq vo Hvo K p N). set (x := first_var p).
  assert (Nd : norm (p_derivative K x p)).
  { apply (derivative_normal vo Hvo (lexS vo) (or_introl eq_refl) K HK x p); [|exact N]. intros n c Hn Hc E. destruct n as [|n]; [lia|].
    apply (domain_integral K HD) in E as [E|E]; [exact (Z_char0 n E)|contradiction]. }
  pose proof (derivative_req vo Hvo (lexS vo) K HK x p N) as R. split; [|exact R]. split; [exact Nd|].
  assert (F0 : vfree K 0%N (graw p)) by (apply (vfree_zexp vo Hvo K HD p 0%N N); apply Forall_forall; intros t Ht; unfold nz0, vars_P in V; rewrite Forall_forall in V; specialize (V t Ht 0%N); destruct (Z.eq_dec (zexp (fst t) 0%N) 0) as [e|n]; [exact e|destruct (V n eq_refl)]).
  assert (F1 : vfree K 0%N (graw (p_derivative K x p))).
  { intros m Hm. rewrite (R m), (coef_deriv K HD) in Hm. assert (N1 : coef K (graw p) ((x, (exp m x + 1)%N) :: mdrop x m) <> c0 K) by (intros X; apply Hm; rewrite X; apply Z.mul_0_r).
    specialize (F0 _ N1). cbn [exp] in F0. rewrite exp_mdrop in F0. destruct (N.eqb_spec x 0) as [e|n]; [lia|].
    destruct (N.eqb_spec 0 x); [congruence|]. lia. }
  apply (vfree_zexp vo Hvo K HD _ 0%N Nd) in F1. unfold nz0, vars_P. rewrite Forall_forall in *. intros t Ht w Hw E. subst w. apply Hw, (F1 t Ht).
Qed.

Lemma number_spec (p : poly) : good p -> is_number p = true -> p <> [] -> exists c, graw p == rconst c /\ p = [(mono1, c)].
Proof.
  intros G E Ne. destruct p as [|t [|u r]]; [congruence| |discriminate]. cbn in E. assert (F : first_var [t] = 0%N).
  { unfold mempty in E. cbn [first_var]. unfold mfirst_var. destruct (md (fst t)); [reflexivity|discriminate]. }
  destruct (first_zero vo Hvo [t] G Ne F) as [c Ec]. exists c. split; [|exact Ec]. rewrite Ec. reflexivity.
Qed.
Lemma number_of_const (p : poly) c : norm p -> graw p == rconst c -> is_number p = true.
Proof.
  intros N E. destruct (Z.eq_dec c 0) as [->|Nc].
  - assert (p = []) as ->; [|reflexivity]. apply (nil_iff vo Hvo p N). rewrite E. apply (rconst_0 K HD).
  - assert (p = [(mono1, c)]) as ->; [|reflexivity]. apply (gnormal_req (lexS vo) (mok vo) sm K M1 HK); [exact N| |exact E].
    repeat constructor. cbn. exact Nc.
Qed.
Lemma not_number_first (p : poly) : good p -> is_number p = false -> first_var p <> 0%N /\ p <> [].
Proof.
  intros G E. split; [|intros ->; discriminate]. intros Z0. assert (Ne : p <> []) by (intros ->; discriminate).
  destruct (first_zero vo Hvo p G Ne Z0) as [c ->]. discriminate.
Qed.

Variable msrt : list (var * Z) -> list (var * Z).
Variable srt : forall C : Type, Mono.poly C -> Mono.poly C.
Variable mcomp qcomp : poly -> poly -> outcome (option poly).
Variable rcomp : poly -> poly -> outcome (option (poly * poly)).
Variable zcomp : forall p (Hp : modulus p), Mono.poly (zpc p) -> Mono.poly (zpc p) -> outcome (option (Mono.poly (zpc p) * Mono.poly (zpc p))).
Variable ps : nat -> pmod.
Variable rnd : path -> nat -> Z.
Hypothesis Env : gcd_env vo msrt srt mcomp qcomp rcomp zcomp ps.
Notation gcd := (poly_gcd vo msrt srt mcomp qcomp rcomp zcomp ps rnd).
Notation div := (pdiv vo qcomp).
Notation eqp := (pv_equal_to mono_eqb Zc).

(** ** pp *)
Theorem poly_pp_ok fuel pa (f q : poly) : good f -> poly_pp vo msrt srt mcomp qcomp rcomp zcomp ps rnd fuel pa f = Ok q ->
  norm q /\ (f = [] -> q = []) /\ (f <> [] -> exists c, good c /\ is_cont K (first_var f) (graw f) (graw c) /\ graw f == rmul K (graw q) (graw c) /\
    is_prim K (first_var f) (graw q)).
Proof.
  intros G E. unfold poly_pp in E. destruct f as [|t r]; [injection E as <-; split; [apply G|]; split; [reflexivity|congruence]|].
  set (f := t :: r) in *. assert (fne : f <> []) by discriminate. assert (fnz : ~ graw f == r0) by exact (proj1 (nz_iff vo Hvo K HD f (proj1 G)) fne).
  destruct (is_number f) eqn:En.
  - injection E as <-. destruct (number_spec f G En fne) as (c & Ec & Ef).
    split; [repeat constructor; discriminate|]. split; [congruence|]. intros _. exists f. split; [exact G|].
    assert (Fr : vfree K (first_var f) (graw f)) by (intros m Hm; rewrite (Ec m) in Hm; exact (vfree_const K _ c m Hm)).
    assert (Ic : is_cont K (first_var f) (graw f) (graw f)) by (apply (is_cont_free K HD); exact Fr).
    assert (Ef' : graw f == rmul K (graw [(mono1, 1)]) (graw f)) by (transitivity (rmul K (r1 K) (graw f)); [ring|reflexivity]).
    split; [exact Ic|]. split; [exact Ef'|]. apply (pp_prim K HD HG (first_var f) (graw f) (graw f)); assumption.
  - destruct (poly_cont _ _ _ _ _ _ _ _ _ _ _ f) as [c| | |] eqn:Ec; try discriminate. cbn [obind] in E.
    destruct (poly_cont_ok vo Hvo _ _ _ _ _ _ _ _ Env _ _ f c G Ec) as (Gc & _ & Ic). specialize (Ic fne).
    pose proof (cont_nz vo Hvo f c fne G Gc Ic) as Cne.
    destruct (pdivrem vo rcomp fuel f c) as [[q' rr]| | |] eqn:Eq; try discriminate. injection E as <-. cbn [fst].
    destruct (pdivtest_quo (lexS vo) (mok vo) sm M1 K HD Zc_quorem (full_mono vo Hvo) rcomp fuel f c q' rr (proj1 G) (proj1 Gc) Cne (proj1 (proj2 Ic))
       (ge_rcomp _ _ _ _ _ _ _ _ Env f c (proj1 G) (proj1 Gc)) Eq) as (Nq & _ & X).
    split; [exact Nq|]. split; [congruence|]. intros _. exists c. split; [exact Gc|]. split; [exact Ic|]. split; [exact X|].
    apply (pp_prim K HD HG (first_var f) (graw f) (graw c)); assumption.
Qed.

Lemma gcdd_spec f pa (F_ F1 : poly) : good F_ -> F_ <> [] -> gcd f pa F_ (p_derivative_lex K F_) = Ok F1 ->
  good F1 /\ F1 <> [] /\ is_gcd K (graw F_) (rderiv K (first_var F_) (graw F_)) (graw F1).
Proof.
  intros G Ne E. destruct (deriv_spec F_ G) as [Gd Ed]. destruct (poly_gcd_ok vo Hvo _ _ _ _ _ _ _ _ Env _ _ _ _ _ G Gd E) as [N1 I1].
  assert (G1 : good F1) by exact (gcd_nz0 vo Hvo _ _ _ G Gd N1 I1). split; [exact G1|]. split.
  - apply (nz_iff vo Hvo K HD F1 N1), (is_gcd_nz K HD _ _ _ I1), (nz_iff vo Hvo K HD F_ (proj1 G)), Ne.
  - apply (is_gcd_proper K HD _ _ (reflexivity _) _ _ Ed _ _ (reflexivity _)), I1.
Qed.
Lemma eqp_true (p q : poly) : norm p -> norm q -> eqp p q = true -> p = q.
Proof. intros Np Nq E. apply (pv_equal_to_spec mono_eqb K (ms_eq (lexS vo) (mok vo) sm M1) HK) in E. exact E. Qed.
Lemma div_first (F_ F1 : poly) x : good F_ -> F_ <> [] -> good F1 -> first_var F_ = x -> x <> 0%N -> is_prim K x (graw F_) ->
  graw F1 %| graw F_ -> is_number F1 = false -> first_var F1 = x.
Proof.
  intros G Ne G1 Ex Nx P D En. assert (V : vars_P (varx vo x) F1).
  { apply (dvd_vars vo Hvo K HD HG F1 F_); auto; [apply G1|apply G|apply (first_varx vo Hvo); assumption|apply varx_dec]. }
  destruct (deg_exists K HD (graw F1) x) as [d [L1 L2]]. destruct (N.eq_dec d 0) as [->|Nd].
  - exfalso. assert (U : unit (graw F1)) by (apply P; [apply (deg_free K), L1|exact D]). apply unit_spec in U as (c & Ec & _).
    rewrite (number_of_const F1 c (proj1 G1) Ec) in En. discriminate.
  - destruct L2 as [?|(m & Hm & Em)]; [contradiction|]. apply (supp_in vo Hvo K HD F1 m (proj1 G1)) in Hm as (t & Ht & Et).
    apply (first_below vo Hvo x F1 t (proj1 G1) V Ht). rewrite (Et x) in Em. lia.
Qed.
Lemma number_unit (F_ F1 : poly) x : good F1 -> F1 <> [] -> is_prim K x (graw F_) -> graw F1 %| graw F_ -> is_number F1 = true -> unit (graw F1).
Proof.
  intros G1 Ne P D En. destruct (number_spec F1 G1 En Ne) as (c & Ec & _). apply P; [|exact D]. intros m Hm. rewrite (Ec m) in Hm. exact (vfree_const K _ c m Hm).
Qed.
Lemma rpow_mul_ (a b : rpoly Z) n : rpow K (rmul K a b) n == rmul K (rpow K a n) (rpow K b n).
Proof. induction n as [|n IH]; cbn [rpow]; [ring|]. rewrite IH. ring. Qed.
Lemma rpow_req (a b : rpoly Z) n : a == b -> rpow K a n == rpow K b n.
Proof. intros E. induction n as [|n IH]; cbn [rpow]; [reflexivity|]. rewrite IH, E. reflexivity. Qed.

Definition sqfree (p : rpoly Z) : Prop := forall h, rmul K h h %| p -> unit h.
Definition entry (x : var) (t : poly * nat) : Prop := good (fst t) /\ (1 <= snd t)%nat.
Lemma sqfree_dvd p q : sqfree p -> q %| p -> sqfree q.
Proof. intros H D h Hh. apply H. apply (rd_trans K HD _ q); assumption. Qed.

Lemma sqf_loop_ok x n : x <> 0%N -> forall pa i F_ F3 lst r, (1 <= i)%nat ->
  good F_ -> F_ <> [] -> first_var F_ = x -> is_prim K x (graw F_) -> norm F3 ->
  (i = 1%nat \/ (good F3 /\ F3 <> [] /\ exists P, P == rmul K (graw F3) (graw F_) /\ graw F_ %| rderiv K x P)) ->
  sqf_loop vo msrt srt mcomp qcomp rcomp zcomp ps rnd n pa i F_ F3 lst = Ok r ->
  exists l, r = lst ++ l /\ Forall (entry x) l /\
    (i = 1%nat -> rprod (graws l) == graw F_ /\ sqfree (rrad (graws l))) /\
    ((1 < i)%nat -> rprod (graws l) == rmul K (rpow K (graw F3) (i - 1)) (graw F_) /\ rrad (graws l) == graw F3).
Proof.
  intros Nx. induction n as [|n IH]; intros pa i F_ F3 lst r Li G Ne Ex P N3 Inv E; cbn [sqf_loop] in E; [discriminate|].
  destruct (poly_gcd _ _ _ _ _ _ _ _ _ _ _ F_ _) as [F1| | |] eqn:E1; try discriminate. cbn [obind] in E.
  destruct (gcdd_spec _ _ _ _ G Ne E1) as (G1 & Ne1 & I1). rewrite Ex in I1. clear E1.
  pose proof (proj1 (nz_iff vo Hvo K HD F_ (proj1 G)) Ne) as Nz. pose proof (proj1 (nz_iff vo Hvo K HD F1 (proj1 G1)) Ne1) as Nz1.
  destruct (is_number F1) eqn:En.
  { pose proof (number_unit F_ F1 x G1 Ne1 P (proj1 I1) En) as U1. destruct U1 as [u Eu].
    assert (EB : graw F_ == rmul K (rmul K (graw F_) u) (graw F1)) by (transitivity (rmul K (graw F_) (r1 K)); [ring|]; rewrite Eu; ring).
    destruct (Nat.ltb_spec 1 i) as [Lt|Ge]; cbn [andb] in E.
    - destruct Inv as [?|(G3 & Ne3 & P0 & EP & DP)]; [lia|].
      assert (D3 : graw F_ %| graw F3).
      { pose proof (sqf_chain K HD HG x P0 (graw F_) (graw F3) (graw F1) (rmul K (graw F_) u) Nz DP EP I1 EB) as X.
        apply (rd_trans K HD _ (rmul K (graw F_) u)); [exists u; ring|exact X]. }
      destruct (eqp F_ F3) eqn:Ee; cbn [negb] in E.
      + apply eqp_true in Ee; [|apply G|exact N3]. subst F3. injection E as <-. exists [(F_, i)]. split; [reflexivity|].
        split; [constructor; [split; [exact G|exact Li]|constructor]|]. split; [lia|]. intros _. cbn [graws map rprod rrad fold_right fst snd]. split; [|ring].
        replace i with (Datatypes.S (i - 1)) at 1 by lia. cbn [rpow]. ring.
      + destruct (pdiv vo qcomp n F3 F_) as [q| | |] eqn:Eq; try discriminate. cbn [obind] in E. injection E as <-.
        destruct (pdiv_spec vo Hvo _ _ _ _ _ _ _ Env n F3 F_ q N3 (proj1 G) Ne D3 Eq) as [Nq Xq].
        assert (Gq : good q). { split; [exact Nq|]. apply (dvd_vars vo Hvo K HD HG q F3); auto; [exists (graw F_); rewrite Xq; ring|apply G3|intros w; destruct (N.eq_dec w 0); [right; tauto|left; assumption]]. }
        exists [(q, (i - 1)%nat); (F_, i)]. split; [rewrite <- app_assoc; reflexivity|].
        split; [constructor; [split; [exact Gq|cbn; lia]|constructor; [split; [exact G|exact Li]|constructor]]|]. split; [lia|]. intros _.
        cbn [graws map rprod rrad fold_right fst snd]. split; [|rewrite Xq; ring].
        rewrite (rpow_req _ _ (i - 1) Xq), rpow_mul_. replace (rpow K (graw F_) i) with (rpow K (graw F_) (Datatypes.S (i - 1))) by (f_equal; lia). cbn [rpow]. ring.
    - assert (i = 1%nat) as -> by lia. injection E as <-. exists [(F_, 1%nat)]. split; [reflexivity|].
      split; [constructor; [split; [exact G|exact Li]|constructor]|]. split; [|lia]. intros _. cbn [graws map rprod rrad fold_right fst snd rpow]. split; [ring|].
      assert (SQ : sqfree (rmul K (graw F_) u)) by (intros h; apply (sqf_part K HD HG Z_char0 Z_unit_dec x (graw F_) P Nz (graw F1) _ I1 EB)).
      apply (sqfree_dvd _ _ SQ). exists u. ring. }
  destruct (pdiv vo qcomp n F_ F1) as [F2| | |] eqn:E2; try discriminate. cbn [obind] in E.
  destruct (pdiv_spec vo Hvo _ _ _ _ _ _ _ Env n F_ F1 F2 (proj1 G) (proj1 G1) Ne1 (proj1 I1) E2) as [N2 X2].
  assert (Nz2 : ~ graw F2 == r0) by (intros X; apply Nz; rewrite X2, X; ring). pose proof (proj2 (nz_iff vo Hvo K HD F2 N2) Nz2) as Ne2.
  assert (G2 : good F2). { split; [exact N2|]. apply (dvd_vars vo Hvo K HD HG F2 F_); auto; [apply G|exists (graw F1); rewrite X2; ring|apply G|intros w; destruct (N.eq_dec w 0); [right; tauto|left; assumption]]. }
  pose proof (div_first F_ F1 x G Ne G1 Ex Nx P (proj1 I1) En) as Ex1.
  pose proof (prim_of_dvd K HD x _ _ P (proj1 I1)) as P1.
  assert (Inv' : good F2 /\ F2 <> [] /\ exists P0, P0 == rmul K (graw F2) (graw F1) /\ graw F1 %| rderiv K x P0).
  { split; [exact G2|]. split; [exact Ne2|]. exists (graw F_). split; [exact X2|apply I1]. }
  destruct (Nat.ltb_spec 1 i) as [Lt|Ge].
  - destruct Inv as [?|(G3 & Ne3 & P0 & EP & DP)]; [lia|].
    pose proof (sqf_chain K HD HG x P0 (graw F_) (graw F3) (graw F1) (graw F2) Nz DP EP I1 X2) as D3.
    destruct (eqp F2 F3) eqn:Ee; cbn [negb] in E.
    + apply eqp_true in Ee; [|exact N2|exact N3]. subst F3. apply IH in E; [|lia|assumption..|right; exact Inv'].
      destruct E as (l & -> & Hl & _ & Q). exists l. split; [reflexivity|]. split; [exact Hl|]. split; [lia|]. intros _. destruct Q as [Q1 Q2]; [lia|].
      split; [|exact Q2]. rewrite Q1, X2. replace (Datatypes.S i - 1)%nat with (Datatypes.S (i - 1)) by lia. cbn [rpow]. ring.
    + destruct (pdiv vo qcomp n F3 F2) as [q| | |] eqn:Eq; try discriminate. cbn [obind] in E.
      destruct (pdiv_spec vo Hvo _ _ _ _ _ _ _ Env n F3 F2 q N3 N2 Ne2 D3 Eq) as [Nq Xq].
      assert (Gq : good q). { split; [exact Nq|]. apply (dvd_vars vo Hvo K HD HG q F3); auto; [exists (graw F2); rewrite Xq; ring|apply G3|intros w; destruct (N.eq_dec w 0); [right; tauto|left; assumption]]. }
      apply IH in E; [|lia|assumption..|right; exact Inv'].
      destruct E as (l & -> & Hl & _ & Q). exists ((q, (i - 1)%nat) :: l). split; [rewrite <- app_assoc; reflexivity|].
      split; [constructor; [split; [exact Gq|cbn; lia]|exact Hl]|]. split; [lia|]. intros _. destruct Q as [Q1 Q2]; [lia|].
      cbn [graws map rprod rrad fold_right fst snd] in *. split; [|change (rmul K (graw q) (rrad (graws l)) == graw F3); rewrite Q2, Xq; reflexivity].
      change (rmul K (rpow K (graw q) (i - 1)) (rprod (graws l)) == rmul K (rpow K (graw F3) (i - 1)) (graw F_)).
      rewrite Q1, (rpow_req _ _ (i - 1) Xq), rpow_mul_, X2. replace (Datatypes.S i - 1)%nat with (Datatypes.S (i - 1)) by lia. cbn [rpow]. ring.
  - assert (i = 1%nat) as -> by lia. assert (E' : exists F3', sqf_loop vo msrt srt mcomp qcomp rcomp zcomp ps rnd n pa 2 F1 F3' lst = Ok r /\ F3' = F2).
    { destruct (eqp F2 F3) eqn:Ee; cbn [negb obind] in E; [|eauto]. apply eqp_true in Ee; [|exact N2|exact N3]. subst F3. eauto. }
    destruct E' as (F3' & E' & ->). apply IH in E'; [|lia|assumption..|right; exact Inv'].
    destruct E' as (l & -> & Hl & _ & Q). exists l. split; [reflexivity|]. split; [exact Hl|]. split; [|lia]. intros _. destruct Q as [Q1 Q2]; [lia|].
    split; [rewrite Q1, X2; cbn [rpow Nat.sub]; ring|]. intros h Hh. apply (sqf_part K HD HG Z_char0 Z_unit_dec x (graw F_) P Nz (graw F1) (graw F2) I1 X2).
    apply (rdivides_proper K HD _ _ (reflexivity _) _ _ Q2), Hh.
Qed.

Lemma prim_cont x p : is_prim K x p <-> is_cont K x p (r1 K).
Proof.
  split.
  - intros P. split; [apply (vfree_const K)|]. split; [apply (rd_1 K HD)|]. exact P.
  - intros (_ & _ & U). exact U.
Qed.
(** h^2 divides a*b with a free of x and b primitive: h = (x-free part) * (primitive part) *)
Lemma square_split x a b h : vfree K x a -> ~ a == r0 -> is_prim K x b -> ~ b == r0 -> rmul K h h %| rmul K a b ->
  exists hp hc, h == rmul K hp hc /\ rmul K hp hp %| b /\ rmul K hc hc %| a.
Proof.
  intros Fa Na Pb Nb D. assert (Nab : ~ rmul K a b == r0) by (intros X; apply (rintegral K HD HG) in X as [X|X]; [exact (Na X)|exact (Nb X)]).
  assert (Nh : ~ h == r0) by (intros X; apply (rd_nz K HD _ _ D Nab); rewrite X; ring).
  destruct (cont_exists K HD HG x h) as [hc Ic]. pose proof Ic as (Fc & [hp Ep] & _). exists hp, hc. split; [exact Ep|].
  pose proof (pp_prim K HD HG x h hc hp Nh Ic Ep) as Pp. split.
  - assert (P2 : is_prim K x (rmul K hp hp)).
    { apply prim_cont. apply prim_cont in Pp. pose proof (gauss K HD HG x _ _ _ _ Pp Pp) as Gs. destruct Gs as (H1 & H2 & H3).
      split; [apply (vfree_const K)|]. split; [apply (rd_1 K HD)|]. intros d Fd Dd. specialize (H3 d Fd Dd). apply (rd_trans K HD _ _ _ H3). exists (r1 K). ring. }
    apply (prim_dvd K HD HG x a); auto. apply (rd_trans K HD _ (rmul K h h)); [|exact D]. exists (rmul K hc hc). rewrite Ep. ring.
  - apply prim_cont in Pb. pose proof (gauss K HD HG x _ _ _ _ (is_cont_free K HD x a Fa) Pb) as (_ & _ & U).
    apply (rd_trans K HD _ (rmul K a (r1 K))); [|exists (r1 K); ring]. apply U; [apply (vfree_mul K HD); exact Fc|].
    apply (rd_trans K HD _ (rmul K h h)); [|exact D]. exists (rmul K hp hp). rewrite Ep. ring.
Qed.
Lemma unit_mul a b h : h == rmul K a b -> unit a -> unit b -> unit h.
Proof. intros E [i Ei] [j Ej]. exists (rmul K i j). transitivity (rmul K (rmul K i a) (rmul K j b)); [rewrite <- Ei, <- Ej; ring|]. rewrite E. ring. Qed.
Lemma sqfree_mul x a b : vfree K x a -> ~ a == r0 -> sqfree a -> is_prim K x b -> ~ b == r0 -> sqfree b -> sqfree (rmul K a b).
Proof. intros Fa Na Sa Pb Nb Sb h D. destruct (square_split x a b h Fa Na Pb Nb D) as (hp & hc & E & D1 & D2). apply (unit_mul hp hc h E); [apply Sb, D1|apply Sa, D2]. Qed.

Lemma rad_dvd l : Forall (fun t => (1 <= snd t)%nat) l -> rrad (graws l) %| rprod (graws l).
Proof.
  induction 1 as [|t l Ht _ IH]; cbn [graws map rprod rrad fold_right]; [apply (rd_refl K HD)|]. apply (rd_mul2 K HD); [|exact IH].
  cbn [fst snd]. destruct t as [tp [|k]]; [cbn in Ht; lia|]. exists (rpow K (graw tp) k). cbn [rpow fst snd]. ring.
Qed.

Theorem squarefreefactorize_ok fuel : forall pa F r, good F -> F <> [] ->
  squarefreefactorize vo msrt srt mcomp qcomp rcomp zcomp ps rnd fuel pa F = Ok r ->
  exists c l, r = (c, 1%nat) :: l /\ good c /\ (exists k, graw c == rconst k) /\ Forall (entry 0%N) l /\
    rprod (graws r) == graw F /\ sqfree (rrad (graws l)).
Proof.
  induction fuel as [|f IH]; intros pa F r G Ne E; cbn [squarefreefactorize] in E; [discriminate|].
  destruct F as [|t0 r0']; [congruence|]. set (F := t0 :: r0') in *.
  destruct (is_number F) eqn:En.
  { injection E as <-. destruct (number_spec F G En Ne) as (k & Ek & _). exists F, []. split; [reflexivity|]. split; [exact G|]. split; [eauto|]. split; [constructor|].
    split; [cbn [graws map rprod fold_right fst snd rpow]; ring|]. intros h [q Hq]. cbn [graws map rrad fold_right] in Hq. exists (rmul K q h). rewrite Hq. ring. }
  destruct (not_number_first F G En) as [Nx _]. set (x := first_var F) in *.
  destruct (poly_cont _ _ _ _ _ _ _ _ _ _ _ F) as [c| | |] eqn:Ec; try discriminate. cbn [obind] in E.
  destruct (poly_cont_ok vo Hvo _ _ _ _ _ _ _ _ Env _ _ F c G Ec) as (Gc & _ & Ic). specialize (Ic Ne). fold x in Ic.
  pose proof (cont_nz vo Hvo F c Ne G Gc Ic) as Cne.
  destruct (pdiv vo qcomp f F c) as [F_| | |] eqn:Ed; try discriminate. cbn [obind] in E.
  destruct (pdiv_spec vo Hvo _ _ _ _ _ _ _ Env f F c F_ (proj1 G) (proj1 Gc) Cne (proj1 (proj2 Ic)) Ed) as [N_ X_].
  pose proof (proj1 (nz_iff vo Hvo K HD F (proj1 G)) Ne) as NzF.
  assert (P_ : is_prim K x (graw F_)) by (apply (pp_prim K HD HG x (graw F) (graw c)); assumption).
  destruct (pp_first vo Hvo F F_ c x G Ne N_ eq_refl Nx (proj1 Ic) X_) as (Ne_ & V_ & Ex_).
  pose proof (varx_good vo x F_ N_ V_) as G_.
  destruct (squarefreefactorize _ _ _ _ _ _ _ _ _ f _ c) as [lc| | |] eqn:Es; try discriminate. cbn [obind] in E.
  apply (IH _ _ _ Gc Cne) in Es as (k & lk & -> & Gk & Ck & Hlk & Pk & Sk). clear IH.
  apply (sqf_loop_ok x f Nx _ 1 F_ [] _ r) in E; auto; [|repeat constructor].
  destruct E as (l & -> & Hl & Q & _). destruct (Q eq_refl) as [Q1 Q2]. clear Q.
  exists k, (lk ++ l). split; [reflexivity|]. split; [exact Gk|]. split; [exact Ck|].
  split; [apply Forall_app; split; [exact Hlk|eapply Forall_impl; [|exact Hl]; intros a Ha; exact Ha]|].
  split.
  { rewrite graws_app, rprod_app, Pk, Q1, X_. ring. }
  rewrite graws_app. intros h Hh. assert (Hh' : rmul K h h %| rmul K (rrad (graws lk)) (rrad (graws l))).
  { apply (rdivides_proper K HD _ _ (reflexivity _) _ _ (rrad_app (graws lk) (graws l))), Hh. }
  pose proof (proj1 (nz_iff vo Hvo K HD c (proj1 Gc)) Cne) as Nzc.
  assert (D1 : rrad (graws lk) %| graw c).
  { apply (rd_trans K HD _ (rprod (graws lk))); [apply rad_dvd; eapply Forall_impl; [|exact Hlk]; intros a [_ Ha]; exact Ha|].
    exists (graw k). rewrite <- Pk. cbn [graws map rprod fold_right fst snd rpow]. change (fold_right _ (r1 K) (map _ lk)) with (rprod (graws lk)). ring. }
  assert (D2 : rrad (graws l) %| graw F_).
  { apply (rdivides_proper K HD _ _ (reflexivity _) _ _ Q1). apply rad_dvd; eapply Forall_impl; [|exact Hl]; intros a [_ Ha]; exact Ha. }
  pose proof (proj1 (nz_iff vo Hvo K HD F_ N_) Ne_) as Nz_.
  apply (sqfree_mul x (rrad (graws lk)) (rrad (graws l))); auto.
  - destruct D1 as [q Eq]. apply (free_div K HD HG x (graw c) q); [exact Eq|exact Nzc|apply Ic].
  - apply (rd_nz K HD _ _ D1 Nzc).
  - apply (prim_of_dvd K HD x _ _ P_ D2).
  - apply (rd_nz K HD _ _ D2 Nz_).
Qed.

(** squarefree up to constants *)
Definition sqf_nc (p : rpoly Z) : Prop := forall h, rmul K h h %| p -> exists k, h == rconst k.
Lemma sqf_nc_dvd p q : sqf_nc p -> q %| p -> sqf_nc q.
Proof. intros H D h Hh. apply H. apply (rd_trans K HD _ q); assumption. Qed.
Theorem is_squarefree_ok fuel : forall pa F b, good F ->
  is_squarefree vo msrt srt mcomp qcomp rcomp zcomp ps rnd fuel pa F = Ok b -> (b = true <-> sqf_nc (graw F)).
Proof.
  induction fuel as [|f IH]; intros pa F b G E; cbn [is_squarefree] in E; [discriminate|].
  destruct F as [|t0 r0'].
  { injection E as <-. split; [discriminate|]. intros H. exfalso. destruct (H (rmono K [(1%N, 1%N)]) (rd_0 K HD _)) as [k Ek].
    specialize (Ek [(1%N, 1%N)]). vm_compute in Ek. discriminate. }
  set (F := t0 :: r0') in *. assert (Ne : F <> []) by discriminate. pose proof (proj1 (nz_iff vo Hvo K HD F (proj1 G)) Ne) as NzF.
  destruct (is_number F) eqn:En.
  { injection E as <-. split; [intros _|reflexivity]. destruct (number_spec F G En Ne) as (k & Ek & _). intros h [q Hq].
    assert (Nk : k <> c0 K) by (intros ->; apply NzF; rewrite Ek; apply (rconst_0 K HD)).
    exists (coef K h []). apply (divisor_const K HD HG k h (rmul K q h) Nk). rewrite <- Ek, Hq. ring. }
  destruct (not_number_first F G En) as [Nx _]. set (x := first_var F) in *.
  destruct (poly_cont _ _ _ _ _ _ _ _ _ _ _ F) as [c| | |] eqn:Ec; try discriminate. cbn [obind] in E.
  destruct (poly_cont_ok vo Hvo _ _ _ _ _ _ _ _ Env _ _ F c G Ec) as (Gc & _ & Ic). specialize (Ic Ne). fold x in Ic.
  pose proof (cont_nz vo Hvo F c Ne G Gc Ic) as Cne. pose proof (proj1 (nz_iff vo Hvo K HD c (proj1 Gc)) Cne) as Nzc.
  destruct (is_squarefree _ _ _ _ _ _ _ _ _ f _ c) as [bc| | |] eqn:Es; try discriminate. cbn [obind] in E.
  apply (IH _ _ _ Gc) in Es. destruct bc.
  2:{ injection E as <-. split; [discriminate|]. intros H. apply Es. apply (sqf_nc_dvd _ _ H), Ic. }
  destruct (pdiv vo qcomp f F c) as [F_| | |] eqn:Ed; try discriminate. cbn [obind] in E.
  destruct (pdiv_spec vo Hvo _ _ _ _ _ _ _ Env f F c F_ (proj1 G) (proj1 Gc) Cne (proj1 (proj2 Ic)) Ed) as [N_ X_].
  assert (P_ : is_prim K x (graw F_)) by (apply (pp_prim K HD HG x (graw F) (graw c)); assumption).
  destruct (pp_first vo Hvo F F_ c x G Ne N_ eq_refl Nx (proj1 Ic) X_) as (Ne_ & V_ & Ex_).
  pose proof (varx_good vo x F_ N_ V_) as G_. pose proof (proj1 (nz_iff vo Hvo K HD F_ N_) Ne_) as Nz_.
  destruct (poly_gcd _ _ _ _ _ _ _ _ _ _ _ F_ _) as [F1| | |] eqn:E1; try discriminate. injection E as <-.
  destruct (gcdd_spec _ _ _ _ G_ Ne_ E1) as (G1 & Ne1 & I1). rewrite Ex_ in I1. clear E1. split.
  - intros En1. pose proof (number_unit F_ F1 x G1 Ne1 P_ (proj1 I1) En1) as [u Eu].
    assert (EB : graw F_ == rmul K (rmul K (graw F_) u) (graw F1)) by (transitivity (rmul K (graw F_) (r1 K)); [ring|]; rewrite Eu; ring).
    assert (SQ : sqfree (rmul K (graw F_) u)) by (intros h; apply (sqf_part K HD HG Z_char0 Z_unit_dec x (graw F_) P_ Nz_ (graw F1) _ I1 EB)).
    assert (SQ' : sqfree (graw F_)) by (apply (sqfree_dvd _ _ SQ); exists u; ring).
    intros h Hh. assert (Hh' : rmul K h h %| rmul K (graw c) (graw F_)) by (apply (rdivides_proper K HD _ _ (reflexivity _) _ (graw F)); [rewrite X_; ring|exact Hh]).
    destruct (square_split x (graw c) (graw F_) h (proj1 Ic) Nzc P_ Nz_ Hh') as (hp & hc & Eh & D1 & D2).
    apply SQ' in D1. apply unit_spec in D1 as (k1 & Ek1 & _). apply (proj1 Es eq_refl) in D2 as [k2 Ek2]. exists (k1 * k2). rewrite Eh, Ek1, Ek2.
    apply (req_single K); [intros v; reflexivity|]. cbn. lia.
  - intros H. assert (SP : sqfree (graw F_)).
    { intros h Hh. destruct (sqf_nc_dvd _ (graw F_) H) with (h := h) as [k Ek]; [exists (graw c); rewrite X_; ring|exact Hh|].
      apply P_; [intros m Hm; rewrite (Ek m) in Hm; exact (vfree_const K _ k m Hm)|]. apply (rd_trans K HD _ (rmul K h h)); [exists h; reflexivity|exact Hh]. }
    pose proof (sqf_conv K HD HG Z_char0 Z_unit_dec x (graw F_) P_ Nz_ (graw F1) I1 SP) as U1. apply unit_spec in U1 as (k & Ek & _).
    apply (number_of_const F1 k (proj1 G1) Ek).
Qed.
End SP.
