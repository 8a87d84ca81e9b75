(** * squarefreebasis: the elements are squarefree, pairwise without common factor, and every input is a constant
      times a product of powers of them (SqfBasis.v). *)
From Coq Require Import Ring_theory Ring Setoid Morphisms Znumtheory.
From Verif Require Import Prelude Coef Spec SpecProofs SpecOps SpecOpsProofs GcdDom GcdPoly GcdMath SqfMath OrderSpec PairVec PairVecProofs
  Mono MonoProofs MonoStruct MonoStructProofs Heap Poly PolyMulProofs Div PolyDivProofs PolyOps MonoOpsProofs PolyOpsGen PolyOpsProofs
  PolyOps2Proofs ConvertProofs PolyOps3Proofs Groebner Zp NumSpec ZpProofs Gcd GcdHom GcdLex GcdZpProofs GcdCont GcdRep GcdTerm GcdProofs GcdMain Sqf SqfProofs SqfBasis.
Local Open Scope Z_scope.

(** multiplicity of the input k *)
Definition mult (k : nat) (ix : occurrences) : nat := list_sum (map (fun t => if Nat.eqb (fst t) k then snd t else 0%nat) ix).
Lemma mult_app k a b : mult k (a ++ b) = (mult k a + mult k b)%nat.
Proof. unfold mult. rewrite map_app. apply list_sum_app. Qed.
Lemma mult_notin k a : ~ In k (map fst a) -> mult k a = 0%nat.
Proof.
  induction a as [|t a IH]; intros H; [reflexivity|]. unfold mult in *. cbn [map list_sum fold_right]. cbn [map In] in H.
  destruct (Nat.eqb_spec (fst t) k) as [E|E]; [tauto|]. apply IH. tauto.
Qed.
Lemma mult_one k e : mult k [(k, e)] = e.
Proof. unfold mult. cbn. rewrite Nat.eqb_refl. lia. Qed.
Lemma mult_other k i e : k <> i -> mult k [(i, e)] = 0%nat.
Proof. intros H. apply mult_notin. intros [X|[]]. apply H. symmetry. exact X. Qed.

Section BP.
Context (vo : vorder) (Hvo : vorder_ok vo).
Notation K := Zc.
Let HD : domain_ok K := Zc_domain.
Let HK : ring_ok K := domain_ring K HD.
Let HG : cgcd_ok K := Z_cgcd.
Local Existing Instance HK.
Add Ring Rring2 : (rring K HK) (setoid (req_equiv K) (rring_ext K HK)).
Notation gt := (lex_gt vo).
Notation norm := (normal (mok vo) gt K).
Notation graw := (graw sm).
Notation poly := (poly Z).
Notation good := (good vo).
Notation "a == b" := (req K a b) (at level 70).
Notation "a %| b" := (rdivides K a b) (at level 70).
Let M1 := lexS_ok vo Hvo.

(** no common non-constant divisor *)
Definition ncop (p q : rpoly Z) : Prop := forall h, h %| p -> h %| q -> exists k, h == rconst k.
Lemma ncop_sym p q : ncop p q -> ncop q p. Proof. intros H h A B. apply H; assumption. Qed.
Lemma ncop_dvd p q p' q' : ncop p q -> p' %| p -> q' %| q -> ncop p' q'.
Proof. intros H A B h X Y. apply H; [apply (rd_trans K HD _ p')|apply (rd_trans K HD _ q')]; assumption. Qed.
Lemma ncop_const p c : c <> 0 -> p == rconst c -> forall q, ncop p q.
Proof.
  intros Nc E q h [a Ea] _. assert (X : rmul K a h == rconst c) by (rewrite <- E, Ea; reflexivity).
  destruct (divisor_const K HD HG c h a Nc X) as [Y _]. eauto.
Qed.
Lemma ncop_gcd p q g c : is_gcd K p q g -> g == rconst c -> c <> 0 -> ncop p q.
Proof. intros (_ & _ & U) E Nc h A B. apply (ncop_const g c Nc E g h); apply U; assumption. Qed.
Lemma sqf_split p a b : sqf_nc p -> p == rmul K a b -> ncop a b.
Proof. intros H E h [u Eu] [v Ev]. apply H. exists (rmul K u v). rewrite E, Eu, Ev. ring. Qed.
Lemma dvd_l p a b : p == rmul K a b -> a %| p. Proof. intros E. exists b. rewrite E. ring. Qed.
Lemma dvd_r p a b : p == rmul K a b -> b %| p. Proof. intros E. exists a. exact E. Qed.
Lemma const_nz p c : ~ p == r0 -> p == rconst c -> c <> 0.
Proof. intros N E ->. apply N. rewrite E. apply (rconst_0 K HD). Qed.

Definition bprod (k : nat) (B : basis) : rpoly Z := fold_right (fun t a => rmul K (rpow K (graw (fst t)) (mult k (snd t))) a) (r1 K) B.
Lemma bprod_app k A B : bprod k (A ++ B) == rmul K (bprod k A) (bprod k B).
Proof. unfold bprod. induction A as [|t A IH]; cbn [app fold_right]; [ring|]. rewrite IH. ring. Qed.
Lemma bprod_notin k B : Forall (fun t => ~ In k (map fst (snd t))) B -> bprod k B == r1 K.
Proof.
  unfold bprod. induction 1 as [|t B H F IH]; cbn [fold_right]; [reflexivity|]. rewrite IH, mult_notin by exact H. cbn [rpow]. ring.
Qed.
Definition raws (B : basis) : list (rpoly Z) := map (fun t => graw (fst t)) B.
(** [rem]: the factors of the input [i] that are still to come *)
Definition elt (OK : nat -> Prop) (i : nat) (rem : list (rpoly Z)) (t : poly * occurrences) : Prop :=
  good (fst t) /\ fst t <> [] /\ sqf_nc (graw (fst t)) /\ NoDup (map fst (snd t)) /\ snd t <> [] /\
  Forall (fun u => OK (fst u) /\ (fst u <= i)%nat /\ (1 <= snd u)%nat) (snd t) /\ (In i (map fst (snd t)) -> Forall (ncop (graw (fst t))) rem).
Definition pw (l : list (rpoly Z)) : Prop := ForallOrdPairs ncop l.
Lemma pw_app l l' : pw (l ++ l') <-> pw l /\ pw l' /\ forall x y, In x l -> In y l' -> ncop x y.
Proof.
  unfold pw. induction l as [|a l IH]; cbn [app].
  - split; [intros H; split; [constructor|]; split; [exact H|]; intros x y []|]. tauto.
  - split.
    + intros H. inversion H as [|? ? H1 H2]; subst. apply IH in H2 as (A & B & C). apply Forall_app in H1 as [H1 H3].
      split; [constructor; assumption|]. split; [exact B|]. intros x y [<-|Hx] Hy; [|apply C; assumption]. rewrite Forall_forall in H3. apply H3, Hy.
    + intros (A & B & C). inversion A as [|? ? A1 A2]; subst. constructor.
      * apply Forall_app. split; [exact A1|]. apply Forall_forall. intros y Hy. apply C; [left; reflexivity|exact Hy].
      * apply IH. split; [exact A2|]. split; [exact B|]. intros x y Hx Hy. apply C; [right; exact Hx|exact Hy].
Qed.
Lemma pw_cons a l : pw (a :: l) <-> pw l /\ forall y, In y l -> ncop a y.
Proof.
  split; [intros H; inversion H as [|? ? H1 H2]; subst; split; [exact H2|]; rewrite Forall_forall in H1; exact H1|].
  intros [A B]. constructor; [apply Forall_forall; exact B|exact A].
Qed.

Variable msrt : list (var * Z) -> list (var * Z).
Variable srt : forall C : Type, Mono.poly C -> Mono.poly C.
Variable mcomp qcomp : poly -> poly -> outcome (option poly).
Variable rcomp : poly -> poly -> outcome (option (poly * poly)).
Variable zcomp : forall p (Hp : modulus p), Mono.poly (zpc p) -> Mono.poly (zpc p) -> outcome (option (Mono.poly (zpc p) * Mono.poly (zpc p))).
Variable ps : nat -> pmod.
Variable rnd : path -> nat -> Z.
Hypothesis Env : gcd_env vo msrt srt mcomp qcomp rcomp zcomp ps.
Notation gcd := (poly_gcd vo msrt srt mcomp qcomp rcomp zcomp ps rnd).
Notation div := (pdiv vo qcomp).
Notation eqp := (pv_equal_to mono_eqb Zc).

Lemma divisor_good (p q : poly) : good p -> p <> [] -> norm q -> graw q %| graw p -> good q /\ q <> [].
Proof.
  intros [Np Vp] Ne Nq D. assert (Nz : ~ graw p == r0) by (apply (nz_iff vo Hvo K HD p Np); exact Ne).
  assert (Nzq : ~ graw q == r0) by (apply (rd_nz K HD _ _ D Nz)).
  assert (Nq0 : q <> []) by (apply (nz_iff vo Hvo K HD q Nq); exact Nzq).
  split; [|exact Nq0]. split; [exact Nq|]. destruct D as [u Eu].
  assert (F0 : vfree K 0%N (graw p)).
  { apply (vfree_zexp vo Hvo K HD p 0%N Np). apply Forall_forall. intros t Ht. unfold nz0, vars_P in Vp. rewrite Forall_forall in Vp. specialize (Vp t Ht 0%N).
    destruct (Z.eq_dec (zexp (fst t) 0%N) 0) as [e|n]; [exact e|destruct (Vp n eq_refl)]. }
  pose proof (free_div K HD HG 0%N (graw p) u (graw q) Eu Nz F0) as F1.
  apply (vfree_zexp vo Hvo K HD q 0%N Nq) in F1. unfold nz0, vars_P. rewrite Forall_forall in *. intros t Ht w Hw E. subst w. apply Hw, (F1 t Ht).
Qed.
Lemma gcd_spec fuel pa (a b g : poly) : good a -> a <> [] -> good b -> gcd fuel pa a b = Ok g ->
  good g /\ g <> [] /\ is_gcd K (graw a) (graw b) (graw g).
Proof.
  intros Ga Ne Gb E. destruct (poly_gcd_ok vo Hvo _ _ _ _ _ _ _ _ Env _ _ a b g Ga Gb E) as [Ng I].
  destruct (divisor_good a g Ga Ne Ng (proj1 I)) as [A B]. auto.
Qed.
Lemma div_spec fuel (a g q : poly) : good a -> a <> [] -> good g -> g <> [] -> graw g %| graw a -> div fuel a g = Ok q ->
  good q /\ q <> [] /\ graw a == rmul K (graw q) (graw g).
Proof.
  intros Ga Ne Gg Ng D E. destruct (pdiv_spec vo Hvo _ _ _ _ _ _ _ Env fuel a g q (proj1 Ga) (proj1 Gg) Ng D E) as [Nq X].
  destruct (divisor_good a q Ga Ne Nq (dvd_l _ _ _ X)) as [A B]. auto.
Qed.
Lemma number_const (p : poly) : good p -> p <> [] -> is_number p = true -> exists c, c <> 0 /\ graw p == rconst c.
Proof.
  intros G Ne E. destruct (number_spec vo Hvo p G E Ne) as (c & Ec & _). exists c. split; [|exact Ec].
  apply (const_nz (graw p)); [|exact Ec]. apply (nz_iff vo Hvo K HD p (proj1 G)), Ne.
Qed.

Lemma raws_app A B : raws (A ++ B) = raws A ++ raws B. Proof. apply map_app. Qed.

Lemma split_factor_ok (OK : nat -> Prop) fuel pa i e rem : OK i -> (1 <= e)%nat -> forall lst tmp l n t,
  Forall (elt OK i (graw tmp :: rem)) lst -> pw (raws lst) ->
  good tmp -> tmp <> [] -> sqf_nc (graw tmp) -> Forall (ncop (graw tmp)) rem ->
  split_factor vo msrt srt mcomp qcomp rcomp zcomp ps rnd fuel pa i e lst tmp = Ok (l, n, t) ->
  Forall (elt OK i rem) (l ++ n) /\ good t /\ t <> [] /\ graw t %| graw tmp /\ pw (raws (l ++ n) ++ [graw t]) /\
  (forall x, In x (raws (l ++ n)) -> exists y, In y (raws lst) /\ x %| y) /\
  (forall x, In x (raws n) -> x %| graw tmp) /\
  (forall k, k <> i -> bprod k (l ++ n) == bprod k lst) /\
  rmul K (bprod i (l ++ n)) (rpow K (graw t) e) == rmul K (bprod i lst) (rpow K (graw tmp) e).
Proof.
  intros Oi He. induction lst as [|[a ix] rest IH]; intros tmp l n t Fl P Gt Nt Sq Cr E; cbn [split_factor] in E.
  { injection E as <- <- <-. split; [constructor|]. split; [exact Gt|]. split; [exact Nt|]. split; [apply (rd_refl K HD)|].
    split; [apply pw_cons; split; [constructor|intros y []]|]. split; [intros x []|]. split; [intros x []|]. split; [reflexivity|]. reflexivity. }
  destruct (gcd _ _ a tmp) as [g| | |] eqn:Eg; try discriminate. cbn [obind] in E.
  pose proof (Forall_inv Fl) as Ea. apply Forall_inv_tail in Fl. unfold elt in Ea. cbn [fst snd] in Ea.
  destruct Ea as (Ga & Na & Sa & Nd & Nix & Le & Ci).
  cbn [raws map] in P. fold (raws rest) in P. apply pw_cons in P as [Pr Pa]. cbn [fst] in Pa.
  destruct (gcd_spec _ _ a tmp g Ga Na Gt Eg) as (Gg & Ng & Ig).
  assert (Weak : Forall (elt OK i (graw tmp :: rem)) rest -> forall t1, graw t1 %| graw tmp -> Forall (elt OK i (graw t1 :: rem)) rest).
  { clear - Hvo HD. intros F t1 D. eapply Forall_impl; [|exact F]. intros [b iy] (A1 & A2 & A3 & A4 & A5 & A6 & A7). cbn [fst snd] in *.
    repeat (split; [assumption|]). intros H. specialize (A7 H). constructor; [|exact (Forall_inv_tail A7)].
    apply (ncop_dvd _ _ _ _ (Forall_inv A7)); [apply (rd_refl K HD)|exact D]. }
  destruct (is_number g) eqn:Eng.
  - destruct (number_const g Gg Ng Eng) as (c & Nc & Ec). pose proof (ncop_gcd _ _ _ c Ig Ec Nc) as Cat.
    destruct (split_factor _ _ _ _ _ _ _ _ _ _ _ i e rest tmp) as [[[l' n'] t']| | |] eqn:Er; try discriminate. cbn [obind] in E. injection E as <- <- <-.
    destruct (IH tmp l' n' t' Fl Pr Gt Nt Sq Cr Er) as (R1 & R2 & R3 & R4 & R5 & R6 & R7 & R8 & R9). clear IH Er.
    split. { cbn [app]. constructor; [|exact R1]. unfold elt. cbn [fst snd]. repeat (split; [assumption|]). intros H. exact (Forall_inv_tail (Ci H)). }
    split; [exact R2|]. split; [exact R3|]. split; [exact R4|]. split.
    { cbn [app raws map fst]. fold (raws (l' ++ n')). apply pw_cons. split; [exact R5|]. intros y Hy. apply in_app_iff in Hy as [Hy|[<-|[]]].
      - destruct (R6 y Hy) as (z & Hz & Dz). apply (ncop_dvd _ _ _ _ (Pa z Hz)); [apply (rd_refl K HD)|exact Dz].
      - apply (ncop_dvd _ _ _ _ Cat); [apply (rd_refl K HD)|exact R4]. }
    split. { intros x [<-|Hx]; [exists (graw a); split; [left; reflexivity|apply (rd_refl K HD)]|]. destruct (R6 x Hx) as (z & Hz & Dz). exists z. split; [right; exact Hz|exact Dz]. }
    split; [exact R7|]. split.
    + intros k Hk. cbn [app bprod fold_right fst snd]. fold (bprod k (l' ++ n')) (bprod k rest). rewrite (R8 k Hk). reflexivity.
    + cbn [app bprod fold_right fst snd]. fold (bprod i (l' ++ n')) (bprod i rest).
      transitivity (rmul K (rpow K (graw a) (mult i ix)) (rmul K (bprod i (l' ++ n')) (rpow K (graw t') e))); [ring|]. rewrite R9. ring.
  - destruct (pdiv vo qcomp fuel tmp g) as [t1| | |] eqn:Et; try discriminate. cbn [obind] in E.
    destruct (div_spec fuel tmp g t1 Gt Nt Gg Ng (proj1 (proj2 Ig)) Et) as (Gt1 & Nt1 & X1).
    assert (Ni : ~ In i (map fst ix)).
    { intros H. specialize (Ci H). pose proof (Forall_inv Ci) as Cat. cbv beta in Cat. destruct (Cat (graw g) (proj1 Ig) (proj1 (proj2 Ig))) as [k Ek].
      rewrite (number_of_const vo Hvo g k (proj1 Gg) Ek) in Eng. discriminate. }
    assert (Ct1g : ncop (graw t1) (graw g)) by (apply (sqf_split (graw tmp)); assumption).
    assert (D1 : graw t1 %| graw tmp) by (apply (dvd_l _ _ _ X1)).
    assert (Dg : graw g %| graw tmp) by apply Ig.
    (* the two outcomes of the comparison, in one shape *)
    match type of E with obind ?X _ = _ => destruct X as [[[a' ix'] new]| | |] eqn:Ecmp; try discriminate end. cbn [obind] in E.
    assert (Hs : graw a' %| graw a /\ elt OK i rem (a', ix') /\ Forall (elt OK i rem) new /\ pw (raws new) /\ (forall x, In x (raws new) -> ncop (graw a') x /\ x = graw g) /\
       ncop (graw t1) (graw a') /\ (forall k, k <> i -> rmul K (rpow K (graw a') (mult k ix')) (bprod k new) == rpow K (graw a) (mult k ix)) /\
       rmul K (rpow K (graw a') (mult i ix')) (bprod i new) == rpow K (graw g) e).
    { assert (Sg : sqf_nc (graw g)) by (apply (sqf_nc_dvd _ _ Sa), Ig).
      assert (NDx : NoDup (map fst (ix ++ [(i, e)]))).
      { rewrite map_app. cbn [map fst]. apply NoDup_Add with (a := i) (l := map fst ix); [|auto]. rewrite <- (app_nil_r (map fst ix)) at 1. apply Add_app. }
      assert (Lx : Forall (fun u => OK (fst u) /\ (fst u <= i)%nat /\ (1 <= snd u)%nat) (ix ++ [(i, e)])) by (apply Forall_app; split; [exact Le|constructor; [cbn [fst snd]; split; [exact Oi|lia]|constructor]]).
      assert (Cg : Forall (ncop (graw g)) rem).
      { eapply Forall_impl; [|exact Cr]. intros y Hy. apply (ncop_dvd _ _ _ _ Hy); [exact Dg|apply (rd_refl K HD)]. }
      destruct (eqp g a) eqn:Eq; cbn [negb] in Ecmp.
      - injection Ecmp as <- <- <-. apply (eqp_true vo Hvo g a (proj1 Gg) (proj1 Ga)) in Eq. subst g.
        split; [apply (rd_refl K HD)|]. split; [unfold elt; cbn [fst snd]; repeat (split; [assumption|]); split; [destruct ix; discriminate|]; split; [exact Lx|]; intros _; exact Cg|].
        split; [constructor|]. split; [constructor|]. split; [intros x []|]. split; [exact Ct1g|]. split.
        + intros k Hk. rewrite mult_app, mult_other, Nat.add_0_r by exact Hk. unfold bprod. cbn [fold_right]. ring.
        + rewrite mult_app, mult_one, (mult_notin i ix Ni). unfold bprod. cbn [fold_right Nat.add]. ring.
      - destruct (pdiv vo qcomp fuel a g) as [q| | |] eqn:Ea; try discriminate. cbn [obind] in Ecmp. injection Ecmp as <- <- <-.
        destruct (div_spec fuel a g q Ga Na Gg Ng (proj1 Ig) Ea) as (Gq & Nq & X2).
        assert (Cqg : ncop (graw q) (graw g)) by (apply (sqf_split (graw a)); assumption).
        assert (Dq : graw q %| graw a) by (apply (dvd_l _ _ _ X2)).
        split; [exact Dq|]. split; [unfold elt; cbn [fst snd]; repeat (split; [first [assumption | apply (sqf_nc_dvd _ _ Sa Dq)]|]); intros H; contradiction|].
        split; [constructor; [|constructor]; unfold elt; cbn [fst snd]; repeat (split; [assumption|]); split; [destruct ix; discriminate|]; split; [exact Lx|]; intros _; exact Cg|].
        split; [apply pw_cons; split; [constructor|intros y []]|]. split; [intros x [<-|[]]; split; [exact Cqg|reflexivity]|].
        split.
        { intros h H1 H2. assert (Hg : h %| graw g) by (apply Ig; [apply (rd_trans K HD _ (graw q))|apply (rd_trans K HD _ (graw t1))]; assumption).
          apply Ct1g; assumption. }
        split.
        + intros k Hk. unfold bprod. cbn [fold_right fst snd]. rewrite mult_app, mult_other, Nat.add_0_r by exact Hk.
          rewrite (rpow_req _ _ (mult k ix) X2), rpow_mul_. ring.
        + unfold bprod. cbn [fold_right fst snd]. rewrite mult_app, mult_one, (mult_notin i ix Ni). cbn [rpow Nat.add]. ring. }
    destruct Hs as (Da & Ea' & Fn & Pn & Cn & Ct1a & Bk & Bi).
    destruct (is_number t1) eqn:Ent.
    + injection E as <- <- <-. destruct (number_const t1 Gt1 Nt1 Ent) as (c & Nc & Ec).
      split. { cbn [app]. constructor; [exact Ea'|]. apply Forall_app. split; [|exact Fn]. eapply Forall_impl; [|exact Fl]. intros [b iy] (A1 & A2 & A3 & A4 & A5 & A6 & A7).
        cbn [fst snd] in *. repeat (split; [assumption|]). intros H. exact (Forall_inv_tail (A7 H)). }
      split; [exact Gt1|]. split; [exact Nt1|]. split; [exact D1|].
      assert (Cc : forall x, ncop x (graw t1)) by (intros x; apply ncop_sym, (ncop_const _ c Nc Ec)).
      split.
      { apply pw_app. split; [|split; [apply pw_cons; split; [constructor|intros y []]|intros x y _ [<-|[]]; apply Cc]].
        cbn [app raws map fst]. fold (raws (rest ++ new)). rewrite raws_app. apply pw_cons. split.
        - apply pw_app. split; [exact Pr|]. split; [exact Pn|]. intros x y Hx Hy. destruct (Cn y Hy) as [_ ->]. apply ncop_sym.
          apply (ncop_dvd _ _ _ _ (Pa x Hx)); [apply Ig|apply (rd_refl K HD)].
        - intros y Hy. apply in_app_iff in Hy as [Hy|Hy]; [apply (ncop_dvd _ _ _ _ (Pa y Hy)); [exact Da|apply (rd_refl K HD)]|apply Cn, Hy]. }
      split.
      { intros x Hx. cbn [app raws map fst In] in Hx. fold (raws (rest ++ new)) in Hx. rewrite raws_app, in_app_iff in Hx. destruct Hx as [<-|[Hx|Hx]].
        - exists (graw a). split; [left; reflexivity|exact Da].
        - exists x. split; [right; exact Hx|apply (rd_refl K HD)].
        - destruct (Cn x Hx) as [_ ->]. exists (graw a). split; [left; reflexivity|apply Ig]. }
      split; [intros x Hx; destruct (Cn x Hx) as [_ ->]; exact Dg|].
      split.
      * intros k Hk. cbn [app bprod fold_right fst snd]. fold (bprod k (rest ++ new)) (bprod k rest). rewrite bprod_app, <- (Bk k Hk). ring.
      * cbn [app bprod fold_right fst snd]. fold (bprod i (rest ++ new)) (bprod i rest). rewrite bprod_app, (mult_notin i ix Ni). cbn [rpow].
        rewrite (rpow_req _ _ e X1), rpow_mul_, <- Bi. ring.
    + destruct (split_factor _ _ _ _ _ _ _ _ _ _ _ i e rest t1) as [[[l' n'] t']| | |] eqn:Er; try discriminate. cbn [obind] in E. injection E as <- <- <-.
      assert (Cr1 : Forall (ncop (graw t1)) rem).
      { eapply Forall_impl; [|exact Cr]. intros y Hy. apply (ncop_dvd _ _ _ _ Hy); [exact D1|apply (rd_refl K HD)]. }
      destruct (IH t1 l' n' t' (Weak Fl t1 D1) Pr Gt1 Nt1 (sqf_nc_dvd _ _ Sq D1) Cr1 Er) as (R1 & R2 & R3 & R4 & R5 & R6 & R7 & R8 & R9). clear IH Er.
      apply Forall_app in R1 as [R1l R1n]. rewrite raws_app, <- app_assoc in R5. apply pw_app in R5 as (Pl & Pn' & Cln).
      assert (R6' : forall x, In x (raws l') \/ In x (raws n') -> exists y, In y (raws rest) /\ x %| y).
      { intros x Hx. apply R6. rewrite raws_app. apply in_app_iff. exact Hx. }
      split. { cbn [app]. constructor; [exact Ea'|]. rewrite !Forall_app. auto. }
      split; [exact R2|]. split; [exact R3|]. split; [apply (rd_trans K HD _ (graw t1)); assumption|].
      split.
      { cbn [app raws map fst]. fold (raws (l' ++ new ++ n')). rewrite !raws_app, <- !app_assoc. apply pw_cons. split.
        - apply pw_app. split; [exact Pl|]. split.
          + apply pw_app. split; [exact Pn|]. split; [exact Pn'|]. intros x y Hx Hy. destruct (Cn x Hx) as [_ ->]. apply ncop_sym. apply in_app_iff in Hy as [Hy|[<-|[]]].
            * apply (ncop_dvd _ _ _ _ Ct1g); [apply R7, Hy|apply (rd_refl K HD)].
            * apply (ncop_dvd _ _ _ _ Ct1g); [exact R4|apply (rd_refl K HD)].
          + intros x y Hx Hy. apply in_app_iff in Hy as [Hy|Hy]; [|apply Cln; assumption]. destruct (Cn y Hy) as [_ ->].
            destruct (R6' x (or_introl Hx)) as (z & Hz & Dz). apply ncop_sym. apply (ncop_dvd _ _ _ _ (Pa z Hz)); [apply Ig|exact Dz].
        - intros y Hy. apply in_app_iff in Hy as [Hy|Hy].
          + destruct (R6' y (or_introl Hy)) as (z & Hz & Dz). apply (ncop_dvd _ _ _ _ (Pa z Hz)); [exact Da|exact Dz].
          + apply in_app_iff in Hy as [Hy|Hy]; [apply Cn, Hy|]. apply ncop_sym. apply in_app_iff in Hy as [Hy|[<-|[]]].
            * apply (ncop_dvd _ _ _ _ Ct1a); [apply R7, Hy|apply (rd_refl K HD)].
            * apply (ncop_dvd _ _ _ _ Ct1a); [exact R4|apply (rd_refl K HD)]. }
      split.
      { intros x Hx. cbn [app raws map fst In] in Hx. fold (raws (l' ++ new ++ n')) in Hx. rewrite !raws_app, !in_app_iff in Hx.
        assert (Q : In x (raws l') \/ In x (raws n') -> exists y, In y (raws ((a, ix) :: rest)) /\ x %| y).
        { intros H. destruct (R6' x H) as (z & Hz & Dz). exists z. split; [right; exact Hz|exact Dz]. }
        destruct Hx as [<-|[Hx|[Hx|Hx]]]; [|apply Q; left; exact Hx| |apply Q; right; exact Hx].
        - exists (graw a). split; [left; reflexivity|exact Da].
        - destruct (Cn x Hx) as [_ ->]. exists (graw a). split; [left; reflexivity|apply Ig]. }
      split.
      { intros x Hx. rewrite raws_app, in_app_iff in Hx. destruct Hx as [Hx|Hx]; [destruct (Cn x Hx) as [_ ->]; exact Dg|].
        apply (rd_trans K HD _ (graw t1)); [apply R7, Hx|exact D1]. }
      split.
      * intros k Hk. cbn [app bprod fold_right fst snd]. fold (bprod k (l' ++ new ++ n')) (bprod k rest). specialize (R8 k Hk). rewrite bprod_app in R8.
        rewrite !bprod_app, <- (Bk k Hk), <- R8. ring.
      * cbn [app bprod fold_right fst snd]. fold (bprod i (l' ++ new ++ n')) (bprod i rest). rewrite bprod_app in R9.
        rewrite !bprod_app, (mult_notin i ix Ni). cbn [rpow]. rewrite (rpow_req _ _ e X1), rpow_mul_.
        transitivity (rmul K (rmul K (rpow K (graw a') (mult i ix')) (bprod i new)) (rmul K (rmul K (bprod i l') (bprod i n')) (rpow K (graw t') e))); [ring|].
        rewrite R9, Bi. ring.
Qed.

Lemma elt_weak OK i rem rem' t : incl rem' rem -> elt OK i rem t -> elt OK i rem' t.
Proof.
  intros Hi (A1 & A2 & A3 & A4 & A5 & A6 & A7). repeat (split; [assumption|]). intros H. specialize (A7 H). rewrite Forall_forall in *. intros x Hx. apply A7, Hi, Hx.
Qed.
Definition fraws (fs : list (poly * nat)) : list (rpoly Z) := map (fun t => graw (fst t)) fs.
Lemma fac_prod_const (c c' : Z) : rmul K (rconst c) (rconst c') == rconst (c * c').
Proof. symmetry. apply (rconst_mul K). Qed.
Lemma rpow_const c e : rpow K (rconst c) e == rconst (c ^ Z.of_nat e).
Proof.
  induction e as [|e IH]; [reflexivity|]. cbn [rpow]. rewrite IH, fac_prod_const. rewrite Nat2Z.inj_succ, Z.pow_succ_r by lia. reflexivity.
Qed.

Lemma basis_factors_ok (OK : nat -> Prop) fuel pa i : OK i -> forall fs lst lst_ l n,
  Forall (fun t => good (fst t) /\ fst t <> [] /\ (1 <= snd t)%nat /\ sqf_nc (graw (fst t))) fs -> pw (fraws fs) ->
  Forall (elt OK i (fraws fs)) (lst ++ lst_) -> pw (raws (lst ++ lst_)) -> Forall (fun t => Forall (ncop (graw (fst t))) (fraws fs)) lst_ ->
  basis_factors vo msrt srt mcomp qcomp rcomp zcomp ps rnd fuel pa i fs lst lst_ = Ok (l, n) ->
  Forall (elt OK i []) (l ++ n) /\ pw (raws (l ++ n)) /\
  (forall k, k <> i -> bprod k (l ++ n) == bprod k (lst ++ lst_)) /\
  exists c, c <> 0 /\ rmul K (rconst c) (bprod i (l ++ n)) == rmul K (bprod i (lst ++ lst_)) (rprod (graws fs)).
Proof.
  intros Oi. induction fs as [|[tm e] fs IH]; intros lst lst_ l n Ff Pf Fl Pl Cl E; cbn [basis_factors] in E.
  { injection E as <- <-. split; [exact Fl|]. split; [exact Pl|]. split; [reflexivity|]. exists 1. split; [lia|].
    cbn [graws map rprod fold_right]. change (rconst 1) with (r1 K). ring. }
  pose proof (Forall_inv Ff) as (Gt & Nt & He & Sq). cbn [fst snd] in Gt, Nt, He, Sq. apply Forall_inv_tail in Ff.
  cbn [fraws map fst] in Pf. fold (fraws fs) in Pf. apply pw_cons in Pf as [Pf Ct].
  destruct (split_factor _ _ _ _ _ _ _ _ _ _ _ i e lst tm) as [[[l1 n1] t1]| | |] eqn:Es; try discriminate. cbn [obind] in E.
  apply Forall_app in Fl as [Fl Fl_]. rewrite raws_app in Pl. apply pw_app in Pl as (Pl & Pl_ & Cll).
  assert (Ctf : Forall (ncop (graw tm)) (fraws fs)) by (apply Forall_forall; exact Ct).
  destruct (split_factor_ok OK fuel _ i e (fraws fs) Oi He lst tm l1 n1 t1 Fl Pl Gt Nt Sq Ctf Es) as (R1 & R2 & R3 & R4 & R5 & R6 & R7 & R8 & R9).
  apply Forall_app in R1 as [R1l R1n]. rewrite raws_app, <- app_assoc in R5. apply pw_app in R5 as (Q1 & Q2 & Q3). apply pw_app in Q2 as (Q2 & _ & Q4).
  assert (R6' : forall x, In x (raws l1) \/ In x (raws n1) -> exists y, In y (raws lst) /\ x %| y).
  { intros x Hx. apply R6. rewrite raws_app. apply in_app_iff. exact Hx. }
  match type of E with context [if is_number t1 then ?x else ?y] => set (last := if is_number t1 then x else y) in * end.
  assert (Ct1 : Forall (ncop (graw t1)) (fraws fs)).
  { eapply Forall_impl; [|exact Ctf]. intros y Hy. apply (ncop_dvd _ _ _ _ Hy); [exact R4|apply (rd_refl K HD)]. }
  assert (L1 : Forall (elt OK i (fraws fs)) last /\ (forall x, In x (raws last) -> x = graw t1)).
  { unfold last. destruct (is_number t1); [split; [constructor|intros x []]|]. split; [|intros x [<-|[]]; reflexivity].
    constructor; [|constructor]. unfold elt. cbn [fst snd map]. split; [exact R2|]. split; [exact R3|]. split; [apply (sqf_nc_dvd _ _ Sq R4)|].
    split; [constructor; [intros []|constructor]|]. split; [discriminate|]. split; [constructor; [cbn [fst snd]; split; [exact Oi|lia]|constructor]|]. intros _. exact Ct1. }
  destruct L1 as [L1 L2].
  assert (Pw1 : pw (raws last)) by (unfold last; destruct (is_number t1); [constructor|apply pw_cons; split; [constructor|intros y []]]).
  assert (Blk : forall k, k <> i -> bprod k last == r1 K).
  { intros k Hk. unfold last. destruct (is_number t1); [reflexivity|]. unfold bprod. cbn [fold_right fst snd]. rewrite mult_other by exact Hk. cbn [rpow]. ring. }
  assert (Bl : exists c', c' <> 0 /\ rmul K (rconst c') (bprod i last) == rpow K (graw t1) e).
  { unfold last. destruct (is_number t1) eqn:En.
    - destruct (number_const t1 R2 R3 En) as (d & Nd & Ed). exists (d ^ Z.of_nat e). split; [apply Z.pow_nonzero; lia|].
      rewrite (rpow_req _ _ e Ed), rpow_const. unfold bprod. cbn [fold_right]. ring.
    - exists 1. split; [lia|]. unfold bprod. cbn [fold_right fst snd]. rewrite mult_one. change (rconst 1) with (r1 K). ring. }
  clearbody last.
  assert (CL : forall x y, In x (raws lst_) -> In y (raws n1) \/ y = graw t1 -> ncop x y).
  { intros x y Hx Hy. unfold raws in Hx. apply in_map_iff in Hx as (u & <- & Hu). rewrite Forall_forall in Cl. specialize (Cl u Hu). cbn [fraws map fst] in Cl.
    pose proof (Forall_inv Cl) as Cu. apply (ncop_dvd _ _ _ _ Cu); [apply (rd_refl K HD)|]. destruct Hy as [Hy| ->]; [apply R7, Hy|exact R4]. }
  apply IH in E; clear IH.
  - destruct E as (S1 & S2 & S3 & c & Nc & S4).
    split; [exact S1|]. split; [exact S2|]. split.
    + intros k Hk. rewrite (S3 k Hk). rewrite !bprod_app. specialize (R8 k Hk). rewrite bprod_app in R8.
      rewrite (Blk k Hk), <- R8. ring.
    + cbn [graws map rprod fold_right fst snd]. fold (graws fs). fold (rprod (graws fs)).
      rewrite bprod_app in R9. rewrite !bprod_app in S4.
      destruct Bl as (c' & Nc' & Bl). exists (c * c'). split; [lia|]. rewrite <- fac_prod_const, !bprod_app.
      transitivity (rmul K (rconst c') (rmul K (rconst c) (rmul K (bprod i l) (bprod i n)))); [ring|]. rewrite S4.
      transitivity (rmul K (rmul K (rmul K (bprod i l1) (bprod i n1)) (rmul K (rconst c') (bprod i last))) (rmul K (bprod i lst_) (rprod (graws fs)))); [ring|].
      rewrite Bl, R9. ring.
  - exact Ff.
  - exact Pf.
  - rewrite !Forall_app. split; [exact R1l|]. split; [|split; [exact R1n|exact L1]].
    eapply Forall_impl; [|exact Fl_]. intros u. apply elt_weak. intros x Hx. right. exact Hx.
  - rewrite !raws_app. apply pw_app. split; [exact Q1|]. split.
    + apply pw_app. split; [exact Pl_|]. split.
      * apply pw_app. split; [exact Q2|]. split; [exact Pw1|]. intros x y Hx Hy. rewrite (L2 y Hy). apply Q4; [exact Hx|left; reflexivity].
      * intros x y Hx Hy. apply in_app_iff in Hy as [Hy|Hy]; apply (CL x y Hx); [left; exact Hy|right; apply L2, Hy].
    + intros x y Hx Hy. apply in_app_iff in Hy as [Hy|Hy].
      * destruct (R6' x (or_introl Hx)) as (z & Hz & Dz). apply (ncop_dvd _ _ _ _ (Cll z y Hz Hy)); [exact Dz|apply (rd_refl K HD)].
      * apply Q3; [exact Hx|]. apply in_app_iff in Hy as [Hy|Hy]; apply in_app_iff; [left; exact Hy|right; left; symmetry; apply L2, Hy].
  - rewrite !Forall_app. split; [|split].
    + eapply Forall_impl; [|exact Cl]. intros u Hu. exact (Forall_inv_tail Hu).
    + apply Forall_forall. intros u Hu. eapply Forall_impl; [|exact Ctf]. intros y Hy. apply (ncop_dvd _ _ _ _ Hy); [|apply (rd_refl K HD)].
      apply R7. unfold raws. apply (in_map (fun t => graw (fst t)) _ _ Hu).
    + apply Forall_forall. intros u Hu. rewrite (L2 (graw (fst u))); [exact Ct1|]. apply (in_map (fun t => graw (fst t)) _ _ Hu).
Qed.

Lemma rad_facts l : sqfree (rrad (graws l)) -> Forall (fun t => sqf_nc (graw (fst t))) l /\ pw (fraws l).
Proof.
  assert (UC : forall h, unit K h -> exists k, h == rconst k) by (intros h U; apply unit_spec in U as (k & Ek & _); eauto).
  assert (Din : forall l t, In t l -> graw (fst t) %| rrad (graws l)).
  { induction l0 as [|u l' IH]; intros t H; [destruct H|]. cbn [graws map rrad fold_right fst]. fold (graws l'). fold (rrad (graws l')). destruct H as [->|H]; [apply (rd_mulr K HD), (rd_refl K HD)|].
    apply (rd_mull K HD), IH, H. }
  induction l as [|t l IH]; intros H; [split; constructor|]. cbn [graws map rrad fold_right fst] in H. fold (graws l) in H. fold (rrad (graws l)) in H.
  destruct IH as [A B]. { apply (sqfree_dvd _ _ H). apply (rd_mull K HD), (rd_refl K HD). }
  split.
  - constructor; [|exact A]. intros h D. apply UC, H. apply (rd_trans K HD _ (graw (fst t))); [exact D|]. apply (rd_mulr K HD), (rd_refl K HD).
  - cbn [fraws map]. fold (fraws l). apply pw_cons. split; [exact B|]. intros y Hy h [a Ea] D. apply UC, H. unfold fraws in Hy. apply in_map_iff in Hy as (u & <- & Hu).
    destruct D as [b Eb]. destruct (Din l u Hu) as [w Ew]. exists (rmul K a (rmul K b w)). rewrite Ea, Ew, Eb. ring.
Qed.

Lemma fac_dvd fs t : In t fs -> (1 <= snd t)%nat -> graw (fst t) %| rprod (graws fs).
Proof.
  intros H L. induction fs as [|u fs IH]; [destruct H|]. cbn [graws map rprod fold_right fst snd]. fold (graws fs). fold (rprod (graws fs)).
  destruct H as [->|H]; [|apply (rd_mull K HD), IH, H]. apply (rd_mulr K HD). destruct (snd t) as [|e]; [lia|]. cbn [rpow]. apply (rd_mulr K HD), (rd_refl K HD).
Qed.
(** what the finished list satisfies for the inputs 0..n-1 *)
Definition basis_of (F : list poly) (B : basis) : Prop :=
  Forall (fun t => good (fst t) /\ fst t <> [] /\ sqf_nc (graw (fst t)) /\ NoDup (map fst (snd t)) /\ snd t <> [] /\
    Forall (fun u => (1 <= snd u)%nat /\ exists f, nth_error F (fst u) = Some f /\ f <> []) (snd t)) B /\
  pw (raws B) /\ forall k f, nth_error F k = Some f -> f <> [] -> exists c, c <> 0 /\ graw f == rmul K (rconst c) (bprod k B).
Lemma basis_loop_ok fuel pa : forall F done lst B, Forall good F -> basis_of done lst ->
  basis_loop vo msrt srt mcomp qcomp rcomp zcomp ps rnd fuel pa (length done) F lst = Ok B -> basis_of (done ++ F) B.
Proof.
  induction F as [|f F IH]; intros done lst B GF HB E; cbn [basis_loop] in E.
  { injection E as <-. rewrite app_nil_r. exact HB. }
  pose proof (Forall_inv GF) as Gf. apply Forall_inv_tail in GF.
  destruct (squarefreefactorize _ _ _ _ _ _ _ _ _ _ _ f) as [r| | |] eqn:Es; try discriminate. cbn [obind] in E.
  replace (done ++ f :: F) with ((done ++ [f]) ++ F) by (rewrite <- app_assoc; reflexivity).
  assert (Nth : forall k g, nth_error (done ++ [f]) k = Some g -> nth_error done k = Some g \/ (k = length done /\ g = f)).
  { intros k g H. destruct (Nat.lt_ge_cases k (length done)) as [L|L]; [rewrite nth_error_app1 in H by exact L; auto|]. rewrite nth_error_app2 in H by exact L.
    destruct (k - length done)%nat as [|m] eqn:Em; [|destruct m; discriminate]. right. injection H as <-. split; [lia|reflexivity]. }
  assert (Nin : forall k g, nth_error done k = Some g -> nth_error (done ++ [f]) k = Some g).
  { intros k g H. rewrite nth_error_app1; [exact H|]. apply nth_error_Some. congruence. }
  assert (Ln : length (done ++ [f]) = Datatypes.S (length done)) by (rewrite app_length; cbn; lia).
  destruct HB as (H1 & H2 & H3).
  destruct f as [|t0 f'].
  { destruct fuel; cbn [squarefreefactorize] in Es; [discriminate|]. injection Es as <-. rewrite <- Ln in E. apply IH in E; [exact E|exact GF|].
    split; [|split; [exact H2|]].
    - eapply Forall_impl; [|exact H1]. intros t (A1 & A2 & A3 & A4 & A5 & A6). repeat (split; [assumption|]). eapply Forall_impl; [|exact A6].
      intros u (B1 & g & B2 & B3). split; [exact B1|]. exists g. split; [apply Nin, B2|exact B3].
    - intros k g H N. apply Nth in H as [H|[_ ->]]; [apply (H3 k g H N)|congruence]. }
  set (f := t0 :: f') in *. assert (Nf : f <> []) by discriminate. clearbody f. clear t0 f'.
  destruct (squarefreefactorize_ok vo Hvo _ _ _ _ _ _ _ _ Env _ _ f r Gf Nf Es) as (cf & fs & -> & Gc & (kc & Ekc) & Fe & Ep & Sr).
  destruct (basis_factors _ _ _ _ _ _ _ _ _ _ _ (length done) fs lst []) as [[l n]| | |] eqn:Eb; try discriminate. cbn [obind] in E.
  destruct (rad_facts fs Sr) as [Sf Pf].
  pose proof (proj1 (nz_iff vo Hvo K HD f (proj1 Gf)) Nf) as Nzf.
  cbn [graws map rprod fold_right fst snd rpow] in Ep. fold (graws fs) in Ep. fold (rprod (graws fs)) in Ep.
  assert (Idx : Forall (fun t => Forall (fun u : nat * nat => ((fst u < length done)%nat /\ exists g, nth_error done (fst u) = Some g /\ g <> []) /\ (1 <= snd u)%nat) (snd t)) lst).
  { eapply Forall_impl; [|exact H1]. intros t (_ & _ & _ & _ & _ & A6). eapply Forall_impl; [|exact A6]. intros u (B1 & g & B2 & B3). split; [|exact B1]. split; [apply nth_error_Some; congruence|eauto]. }
  assert (NI : Forall (fun t : poly * occurrences => ~ In (length done) (map fst (snd t))) lst).
  { eapply Forall_impl; [|exact Idx]. intros t A H. apply in_map_iff in H as (u & Eu & Hu). rewrite Forall_forall in A. specialize (A u Hu). lia. }
  set (OK := fun k => exists g, nth_error (done ++ [f]) k = Some g /\ g <> []).
  assert (Oi : OK (length done)) by (exists f; split; [rewrite nth_error_app2, Nat.sub_diag by apply Nat.le_refl; reflexivity|exact Nf]).
  apply (basis_factors_ok OK fuel _ (length done) Oi fs lst [] l n) in Eb.
  - destruct Eb as (S1 & S2 & S3 & c & Nc & S4). rewrite app_nil_r in S3, S4. rewrite <- Ln in E. apply IH in E; [exact E|exact GF|]. clear IH.
    assert (Old : forall k, (k < length done)%nat -> bprod k (l ++ n) == bprod k lst) by (intros k Hk; apply S3; lia).
    (* only non-zero inputs occur *)
    assert (Occ : Forall (fun t => Forall (fun u : nat * nat => (1 <= snd u)%nat /\ exists g, nth_error (done ++ [f]) (fst u) = Some g /\ g <> []) (snd t)) (l ++ n)).
    { eapply Forall_impl; [|exact S1]. intros t (_ & _ & _ & _ & _ & A6 & _). eapply Forall_impl; [|exact A6]. intros u (B1 & _ & B2). split; [exact B2|exact B1]. }
    split; [|split; [exact S2|]].
    + rewrite Forall_forall in *. intros t Ht. destruct (S1 t Ht) as (A1 & A2 & A3 & A4 & A5 & A6 & A7). repeat (split; [assumption|]). apply (Occ t Ht).
    + intros k g H N. apply Nth in H as [H|[-> ->]].
      * destruct (H3 k g H N) as (d & Nd & Ed). exists d. split; [exact Nd|]. rewrite Old; [exact Ed|]. apply nth_error_Some. congruence.
      * rewrite (bprod_notin _ lst NI) in S4. exists (kc * c). split.
        { intros X. apply Nzf. rewrite <- Ep, Ekc. assert (kc = 0) as -> by lia. rewrite (rconst_0 K HD). ring. }
        rewrite <- fac_prod_const. rewrite <- Ep, Ekc. transitivity (rmul K (rconst kc) (rmul K (rconst c) (bprod (length done) (l ++ n)))); [|ring]. rewrite S4. ring.
  - rewrite Forall_forall in *. intros t Ht. destruct (Fe t Ht) as [A B1]. split; [exact A|]. split; [|split; [exact B1|apply Sf, Ht]].
    apply (nz_iff vo Hvo K HD (fst t) (proj1 A)). apply (rd_nz K HD (graw (fst t)) (graw f)); [|exact Nzf].
    apply (rd_trans K HD _ (rprod (graws fs))); [apply (fac_dvd fs t Ht B1)|]. exists (graw cf). rewrite <- Ep. ring.
  - exact Pf.
  - rewrite app_nil_r. rewrite Forall_forall in *. intros t Ht. destruct (H1 t Ht) as (A1 & A2 & A3 & A4 & A5 & A6). repeat (split; [assumption|]). split.
    + specialize (Idx t Ht). eapply Forall_impl; [|exact Idx]. intros u [[B1 (g & B3 & B4)] B2]. split; [exists g; split; [apply Nin, B3|exact B4]|lia].
    + intros H. destruct (NI t Ht H).
  - rewrite app_nil_r. exact H2.
  - constructor.
Qed.
End BP.
