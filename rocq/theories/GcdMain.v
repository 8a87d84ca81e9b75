(** * The multivariate gcd over the integers: whatever primes and points are drawn, a returned value is a
      greatest common divisor (Gcd.v, [poly_gcd], [poly_cont], [poly_pp]). *)
From Coq Require Import Ring_theory Ring Setoid Morphisms Znumtheory.
From Verif Require Import Prelude Coef Spec SpecProofs SpecOps SpecOpsProofs GcdDom GcdPoly GcdMath OrderSpec PairVec PairVecProofs
  Mono MonoProofs MonoStruct MonoStructProofs Heap Poly PolyMulProofs Div PolyDivProofs PolyOps MonoOpsProofs PolyOpsGen PolyOpsProofs
  PolyOps2Proofs ConvertProofs PolyOps3Proofs Groebner Zp NumSpec ZpProofs Gcd GcdHom GcdLex GcdZpProofs GcdCont GcdRep GcdTerm GcdProofs.
Local Open Scope Z_scope.

Section PG.
Context (vo : vorder) (Hvo : vorder_ok vo).
Notation K := Zc.
Let HD : domain_ok K := Zc_domain.
Let HK : ring_ok K := domain_ring K HD.
Let HG : cgcd_ok K := Z_cgcd.
Local Existing Instance HK.
Add Ring Rring : (rring K HK) (setoid (req_equiv K) (rring_ext K HK)).
Notation S := (lexS vo).
Notation gt := (lex_gt vo).
Notation norm := (normal (mok vo) gt K).
Notation graw := (graw sm).
Notation poly := (poly Z).
Notation good := (good vo).
Notation "a == b" := (req K a b) (at level 70).
Notation "a %| b" := (rdivides K a b) (at level 70).
Let M1 := lexS_ok vo Hvo.
Let HO := ms_order S (mok vo) sm M1.
Let full := full_mono vo Hvo.

Variable msrt : list (var * Z) -> list (var * Z).
Variable srt : forall C : Type, Mono.poly C -> Mono.poly C.
Variable mcomp qcomp : poly -> poly -> outcome (option poly).
Variable rcomp : poly -> poly -> outcome (option (poly * poly)).
Variable zcomp : forall p (Hp : modulus p), Mono.poly (zpc p) -> Mono.poly (zpc p) -> outcome (option (Mono.poly (zpc p) * Mono.poly (zpc p))).
Variable ps : nat -> pmod.
Variable rnd : path -> nat -> Z.

(** what is assumed of std::sort, of the packed-monomial hooks and of the stream of primes *)
Record gcd_env : Prop := {
  ge_msrt : sort_ok (fun _ : var => True) vo msrt;
  ge_srt : forall C, sort_ok (mok vo) gt (srt C);
  ge_mcomp : forall F G, norm F -> norm G -> comp_good S (mok vo) sm K mcomp F G;
  ge_qcomp : forall F G, norm F -> norm G -> dcomp_good S (mok vo) sm K qcomp F G;
  ge_rcomp : forall F G, norm F -> norm G -> dtcomp_good S (mok vo) sm K rcomp F G;
  ge_zcomp : forall p (Hp : modulus p), prime p -> forall x F G, normal (mok vo) gt (Zpc p Hp) F -> normal (mok vo) gt (Zpc p Hp) G ->
      vars_P (eq x) F -> vars_P (eq x) G -> drcomp_good S (mok vo) sm (Zpc p Hp) (zcomp p Hp) F G;
  ge_prime : forall i, prime (pm (ps i));
}.
Hypothesis Env : gcd_env.

Lemma pdiv_spec f (F G H : poly) : norm F -> norm G -> G <> [] -> graw G %| graw F ->
  pdiv vo qcomp f F G = Ok H -> norm H /\ graw F == rmul K (graw H) (graw G).
Proof. intros NF NG Gne Dv E. apply (pdiv_ok S (mok vo) sm M1 K HD Zc_quorem full qcomp f F G H NF NG Gne Dv); [apply (ge_qcomp Env); assumption|exact E]. Qed.
Lemma pdivrem_spec f (F G Q : poly) : norm F -> norm G -> G <> [] ->
  pdivrem vo rcomp f F G = Ok (Q, []) -> norm Q /\ graw F == rmul K (graw Q) (graw G).
Proof. intros NF NG Gne E. apply (pdivtest_dvd S (mok vo) sm M1 K HD Zc_quorem rcomp f F G Q NF NG Gne); [apply (ge_rcomp Env); assumption|exact E]. Qed.
Lemma pmul_spec (F G R : poly) : norm F -> norm G -> pmul vo mcomp F G = Ok R -> norm R /\ graw R == rmul K (graw F) (graw G).
Proof.
  intros NF NG E. destruct (p_mul_ok S (mok vo) sm K M1 HK HD mcomp F G) as (R' & E' & A & B); [split; apply (ge_mcomp Env); assumption|assumption..|].
  unfold pmul in E. rewrite E' in E. injection E as <-. auto.
Qed.

Definition varx (x : var) (w : var) : Prop := w <> 0%N /\ (w = x \/ vo x w = true).
Lemma varx_dec x w : {varx x w} + {~ varx x w}.
Proof.
  unfold varx. destruct (N.eq_dec w 0); [right; tauto|]. destruct (N.eq_dec w x); [left; tauto|].
  destruct (vo x w); [left; tauto|right]. intros [_ [?|?]]; [contradiction|discriminate].
Qed.
Lemma varx_good x p : norm p -> vars_P (varx x) p -> good p.
Proof. intros N V. split; [exact N|]. eapply Forall_impl; [|exact V]. cbv beta. intros t H w Hw. apply (H w Hw). Qed.
Lemma first_varx (p : poly) x : good p -> first_var p = x -> x <> 0%N -> vars_P (varx x) p.
Proof.
  intros [N V] E Nx. destruct (first_spec vo Hvo K HD p x N E Nx) as (_ & _ & _ & T & _). apply Forall_forall. intros t Ht w Hw.
  split; [unfold nz0, vars_P in V; rewrite Forall_forall in V; apply (V t Ht w Hw)|]. apply (topp_occ vo Hvo K p x t w N T Ht Hw).
Qed.

Lemma dle p v d n : deg_is K p v d -> deg_le K p v n -> (d <= n)%N.
Proof. intros [_ [->|(m & Hm & <-)]] L; [apply N.le_0_l|]. apply L, Hm. Qed.
(** the first variable of a polynomial in the variables below x *)
Lemma first_below x (p : poly) t : norm p -> vars_P (varx x) p -> In t p -> 0 < zexp (fst t) x -> first_var p = x.
Proof.
  intros N V Ht Pt. destruct p as [|u r]; [destruct Ht|]. destruct (nin vo K _ u N (or_introl eq_refl)) as [Ou _].
  assert (T : topm vo x (fst u)).
  { apply (topm_of vo Hvo x _ Ou). intros w Hw. apply (Forall_inv V w). lia. }
  destruct (topp_head vo Hvo K x u r N T) as [_ L]. rewrite Forall_forall in L. specialize (L t Ht). cbv beta in L.
  cbn [first_var]. unfold mfirst_var. destruct (topm_shape vo Hvo x _ Ou T) as [[_ Z0]|(e & l & E & _ & _)]; [lia|]. rewrite E. reflexivity.
Qed.

Section Crt.
Variable x : var.
Variable F G lc cg : poly.
Hypothesis Nx : x <> 0%N.
Hypothesis NF : norm F.
Hypothesis NG : norm G.
Hypothesis VF : vars_P (varx x) F.
Hypothesis VG : vars_P (varx x) G.
Hypothesis EF : first_var F = x.
Hypothesis EG : first_var G = x.
Hypothesis Nlc : norm lc.
Hypothesis Dlc : graw lc %| rcoeff K x (Z.to_N (first_deg F)) (graw F).
Hypothesis Ncg : norm cg.
Variable gcd : path -> poly -> poly -> outcome poly.
Hypothesis Hgcd : forall pa A B R, good A -> good B -> gcd pa A B = Ok R -> norm R /\ is_gcd K (graw A) (graw B) (graw R).

Definition crt_res (R : poly) : Prop := norm R /\ exists H d, graw R == rmul K H (graw cg) /\ H %| graw F /\ H %| graw G /\
  deg_is K H x d /\ forall D, D %| graw F -> D %| graw G -> deg_le K D x d.

Lemma symm1_vars (p : Z) (Hp : modulus p) (Q : Mono.poly (zpc p)) : prime p ->
  normal (mok vo) gt (Zpc p Hp) Q -> vars_P (varx x) Q ->
  let Z1 := p_convert Zc vo gt msrt (srt Z) (@proj1_sig _ _) Q in
  let P := map (fun t => (fst t, symm1 p (snd t))) Z1 in norm P /\ vars_P (varx x) P.
Proof.
  intros Pr NQ VQ Z1 P. assert (HSS : S = lexS vo \/ S = grlexS vo) by (left; reflexivity).
  pose proof (Zpc_field p Hp Pr) as HFp. pose proof (field_domain _ HFp) as HDp. pose proof (domain_ring _ HDp) as HKp.
  assert (P0 : proj1_sig (c0 (Zpc p Hp)) = c0 Zc). { change (0 mod p = 0). apply Z.mod_0_l. unfold modulus in Hp. lia. }
  destruct (convert_spec vo vo Hvo Hvo S S HSS HSS (Zpc p Hp) Zc HKp HK (@proj1_sig _ _) P0 msrt (ge_msrt Env) (srt Z) (ge_srt Env Z) Q NQ) as [NZ' EZ'].
  assert (NZ : norm Z1) by exact NZ'. assert (EZ : forall s, coef K (graw Z1) s = proj1_sig (coef (Zpc p Hp) (graw Q) s)) by exact EZ'. clear NZ' EZ'.
  assert (Sp : forall t, In t Z1 -> exists u, In u Q /\ (forall v, zexp (fst u) v = zexp (fst t) v) /\ 0 < snd t < p).
  { intros t Ht. pose proof (in_supp vo Hvo K HD Z1 t NZ Ht) as Su. destruct (nin vo K Z1 t NZ Ht) as [Ot _].
    pose proof (in_coef S (mok vo) sm K M1 HK Z1 t (proj1 NZ) (proj1 (proj2 NZ)) Ht) as Ec.
    pose proof (EZ (sm (fst t))) as Ez. rewrite Ec in Ez.
    assert (Sq : coef (Zpc p Hp) (graw Q) (sm (fst t)) <> c0 (Zpc p Hp)). { intros E. apply Su. rewrite Ec, Ez, E. exact P0. }
    destruct (supp_in vo Hvo (Zpc p Hp) HDp Q _ NQ Sq) as (u & Hu & Eu). exists u. split; [exact Hu|]. split.
    - intros v. specialize (Eu v). rewrite (exp_sm_mok vo _ v Ot) in Eu. pose proof (zexp_nonneg vo _ v Ot).
      pose proof (zexp_nonneg vo _ v (proj1 (nin vo _ Q u NQ Hu))). lia.
    - pose proof (zpc_res p (coef (Zpc p Hp) (graw Q) (sm (fst t)))) as R. unfold residue in R. rewrite <- Ez in R.
      rewrite Ec in Su. cbn in Su. lia. }
  split; [split; [|split]|].
  - unfold all_ok, P. rewrite Forall_map. exact (proj1 NZ).
  - unfold desc, P. rewrite map_map. exact (proj1 (proj2 NZ)).
  - unfold nonzero, P. rewrite Forall_map. apply Forall_forall. intros t Ht. cbn [snd]. destruct (Sp t Ht) as (_ & _ & _ & B).
    unfold symm1. rewrite Z.rem_small by lia. destruct (snd t >? p ÷ 2); cbn; lia.
  - unfold P. unfold vars_P. rewrite Forall_map. apply Forall_forall. intros t Ht w Hw. cbn [fst] in Hw.
    destruct (Sp t Ht) as (u & Hu & Eu & _). unfold vars_P in VQ. rewrite Forall_forall in VQ. apply (VQ u Hu w). rewrite (Eu w). exact Hw.
Qed.

Lemma crt_loop_ok n : forall pa i M d P R, norm P -> vars_P (varx x) P ->
  crt_loop vo msrt srt mcomp qcomp rcomp zcomp ps rnd n gcd pa F G lc cg i M d P = Ok R -> crt_res R.
Proof.
  induction n as [|n IH]; intros pa i M d P R NP VP E; cbn [crt_loop] in E; [discriminate|].
  destruct (first_spec vo Hvo K HD F x NF EF Nx) as (tf & rf & Ef & TF & _ & _ & _ & DF).
  destruct (first_spec vo Hvo K HD G x NG EG Nx) as (tg & rg & Eg & TG & _).
  rewrite Ef, Eg in E. rewrite <- Ef, <- Eg in E.
  set (p := pm (ps i)) in *. set (Hp := pm_ok (ps i)) in *. pose proof (ge_prime Env i) as Pr. fold p in Pr.
  destruct ((Z.rem (snd tf) p =? 0) || (Z.rem (snd tg) p =? 0)) eqn:Eb; [apply (IH _ _ _ _ _ _ NP VP E)|].
  apply orb_false_iff in Eb as [Hf Hg']. apply Z.eqb_neq in Hf, Hg'.
  match type of E with obind ?r _ = _ => destruct r as [[[Q d']|]| | |] eqn:Er; try discriminate; cbn [obind] in E end; [|apply (IH _ _ _ _ _ _ NP VP E)].
  pose proof (Zpc_field p Hp Pr) as HFp. pose proof (field_domain _ HFp) as HDp. pose proof (domain_ring _ HDp) as HKp.
  assert (Pre : mod_pre vo (Zpc p Hp) x (p_mod (Zpc p Hp) (zpc_of p Hp) F) (p_mod (Zpc p Hp) (zpc_of p Hp) G) (p_mod (Zpc p Hp) (zpc_of p Hp) lc)).
  { pose proof NF as NF'. pose proof NG as NG'. pose proof EF as EF'. pose proof EG as EG'. pose proof Dlc as Dlc'. rewrite Ef in NF', EF', Dlc' |- *. rewrite Eg in NG', EG' |- *.
    apply (mod_pre_ok vo Hvo p Hp Pr x); assumption. }
  pose proof (mod_gcd_ok vo Hvo (Zpc p Hp) HFp (zcomp p Hp) (ge_zcomp Env p Hp Pr) p (srt (zpc p)) (ge_srt Env (zpc p))
                (fun pa k => zpc_of p Hp (rnd pa k)) n x _ _ _ _ _ Q d' Pre Er) as (NQ & Pd & LQ & EQ & VQ & UQ).
  specialize (VQ (varx x) (pmod_vars p Hp _ F VF) (pmod_vars p Hp _ G VG)).
  assert (UD : forall D, D %| graw F -> D %| graw G -> deg_le K D x (Z.to_N d')).
  { pose proof NF as NF'. pose proof NG as NG'. pose proof EF as EF'. rewrite Ef in NF', EF', UQ |- *. rewrite Eg in NG', UQ |- *.
    apply (mod_degree vo Hvo p Hp Pr x tf rf tg rg Q d'); assumption. }
  destruct (d' <? d).
  { destruct (symm1_vars p Hp Q Pr NQ VQ) as [A1 A2]. apply (IH _ _ _ _ _ _ A1 A2 E). }
  destruct (zp_inv p (M mod p)) as [inv| | |]; try discriminate. cbn [obind] in E.
  set (M' := M * p) in *. set (W := crt_merge vo inv M P Q) in *. set (T := map (fun t => (fst t, symm2 M' (snd t))) W) in *.
  destruct (crt_spec vo Hvo inv M P Q (proj1 NP) (proj1 (proj2 NP)) (proj1 NQ) (proj1 (proj2 NQ))) as (W1 & W2 & W3). fold W in W1, W2, W3.
  destruct (existsb (fun t => snd t =? 0) T) eqn:Ez; [discriminate|].
  assert (NT : norm T).
  { split; [|split].
    - unfold all_ok, T. rewrite Forall_map. apply Forall_forall. intros e He. cbn [fst].
      destruct (W2 e He) as [(t & Ht & ->)|(u & Hu & ->)]; [apply (nin vo K P t NP Ht)|apply (nin vo _ Q u NQ Hu)].
    - unfold desc, T. rewrite map_map. exact W1.
    - apply Forall_forall. intros e He Z0. rewrite <- not_true_iff_false in Ez. apply Ez. apply existsb_exists. exists e. split; [exact He|].
      rewrite Z0. reflexivity. }
  assert (VT : vars_P (varx x) T).
  { unfold T, vars_P. rewrite Forall_map. apply Forall_forall. intros e He. cbn [fst].
    unfold vars_P in VP, VQ. rewrite Forall_forall in VP, VQ.
    destruct (W2 e He) as [(t & Ht & ->)|(u & Hu & ->)]; [apply (VP t Ht)|apply (VQ u Hu)]. }
  destruct (pv_equal_to mono_eqb K T P) eqn:Et; [|apply (IH _ _ _ _ _ _ NT VT E)].
  apply (pv_equal_to_spec mono_eqb K mono_eqb_iff HK) in Et.
  (* a term of degree d' *)
  apply Exists_exists in EQ as (u & Hu & Eu). destruct (W3 u Hu) as (e & He & Ee).
  set (e' := (fst e, symm2 M' (snd e))). assert (Ie : In e' T) by (apply (in_map (fun t => (fst t, symm2 M' (snd t)))), He).
  assert (De : zexp (fst e') x = d') by (cbn [e' fst]; rewrite Ee; exact Eu).
  destruct (N.eqb_spec (first_var P) (first_var F)) as [Ev|Nv].
  - match type of E with obind ?r _ = _ => destruct r as [c| | |] eqn:Ec; try discriminate; cbn [obind] in E end.
    rewrite <- Et in Ev, Ec.
    destruct (cont_with_ok vo Hvo _ T c (varx_good x T NT VT) (fun k A B R' => Hgcd _ A B R') Ec) as (Gc & _ & Ic).
    assert (Tne : T <> []) by (intros X; rewrite X in Ie; destruct Ie). specialize (Ic Tne). rewrite Ev, EF in Ic. destruct Ic as (Fc & Dc & Uc).
    assert (NzT : ~ graw T == r0) by (apply (nz_iff vo Hvo K HD T NT), Tne).
    assert (Nzc : ~ graw c == r0) by (apply (rd_nz K HD _ (graw T)); assumption).
    assert (Cne : c <> []) by (apply (nz_iff vo Hvo K HD c (proj1 Gc)), Nzc).
    destruct (pdiv vo qcomp n T c) as [H| | |] eqn:Eh; try discriminate. cbn [obind] in E.
    destruct (pdiv_spec n T c H NT (proj1 Gc) Cne Dc Eh) as [NH EH].
    assert (NzH : ~ graw H == r0) by (intros X; apply NzT; rewrite EH, X; ring).
    assert (Hne : H <> []) by (apply (nz_iff vo Hvo K HD H NH), NzH).
    assert (VH : vars_P (varx x) H).
    { apply (dvd_vars vo Hvo K HD HG H T); auto; [|apply varx_dec]. exists (graw c). rewrite EH. ring. }
    destruct (pdivrem vo rcomp n F H) as [[Q1 R1]| | |] eqn:E1; try discriminate. cbn [obind] in E.
    destruct R1 as [|r1 R1]; [|apply (IH _ _ _ _ _ _ NH VH E)].
    destruct (pdivrem vo rcomp n G H) as [[Q2 R2]| | |] eqn:E2; try discriminate. cbn [obind] in E.
    destruct R2 as [|r2 R2]; [|apply (IH _ _ _ _ _ _ NH VH E)].
    destruct (pdivrem_spec n F H Q1 NF NH Hne E1) as [_ EQ1]. destruct (pdivrem_spec n G H Q2 NG NH Hne E2) as [_ EQ2].
    destruct (pmul_spec H cg R NH Ncg E) as [NR ER]. split; [exact NR|]. exists (graw H).
    destruct (deg_exists K HD (graw H) x) as [dH DH]. exists dH. split; [exact ER|]. split; [exists (graw Q1); exact EQ1|]. split; [exists (graw Q2); exact EQ2|].
    split; [exact DH|]. intros D D1 D2. apply (deg_le_weak K D x (Z.to_N d') dH); [|apply UD; assumption].
    destruct (deg_exists K HD (graw c) x) as [dc Hdc].
    assert (dc = 0%N) as ->. { apply (deg_is_unique K (graw c) x); [exact Hdc|]. split; [apply (deg_free K), Fc|left; reflexivity]. }
    pose proof (deg_is_mul K HD HG _ _ x _ _ NzH Nzc DH Hdc) as [LT _]. rewrite N.add_0_r in LT.
    destruct (nin vo K T e' NT Ie) as [Oe _]. pose proof (in_supp vo Hvo K HD T e' NT Ie) as Se. rewrite (EH _) in Se. specialize (LT _ Se).
    rewrite (exp_sm_mok vo _ x Oe), De in LT. exact LT.
  - injection E as <-. split; [exact Ncg|]. exists (r1 K), 0%N. split; [ring|]. split; [apply (rd_1 K HD)|]. split; [apply (rd_1 K HD)|].
    assert (d' = 0) as D0.
    { destruct (Z.eq_dec d' 0) as [z|nz]; [exact z|]. exfalso. apply Nv. rewrite <- Et, EF. apply (first_below x T e' NT VT Ie). lia. }
    rewrite D0 in UD. split; [|exact UD]. split; [|left; reflexivity]. apply (deg_free K), (vfree_const K).
Qed.
End Crt.

(** ** constants *)
Lemma first_zero (p : poly) : good p -> p <> [] -> first_var p = 0%N -> exists c, p = [(mono1, c)].
Proof.
  intros [N V] Hp E. destruct p as [|t r]; [congruence|]. destruct (nin vo K _ t N (or_introl eq_refl)) as [Ot _].
  destruct (md (fst t)) as [|[w e] l] eqn:Em.
  - destruct (first_const vo K r t N Em) as [E1 ->]. destruct t as [m c]. cbn [fst] in E1. subst m. eauto.
  - exfalso. cbn [first_var] in E. unfold mfirst_var in E. rewrite Em in E. subst w.
    pose proof (Forall_inv V 0%N) as X. apply X; [|reflexivity]. unfold zexp. rewrite Em.
    pose proof (mok_dok vo _ Ot) as Od. rewrite Em in Od. pose proof Od as Od'. apply dok_cons in Od' as (Pe & _).
    rewrite (ex_in vo Hvo _ 0%N e Od (or_introl eq_refl)). cbn [snd] in Pe. intros E1. rewrite E1 in Pe. discriminate Pe.
Qed.
Lemma below_free (p : poly) x : good p -> first_var p <> 0%N -> vo x (first_var p) = true -> vfree K x (graw p).
Proof.
  intros [N V] Nx Vx. destruct (first_spec vo Hvo K HD p _ N eq_refl Nx) as (_ & _ & _ & T & _).
  apply (vfree_zexp vo Hvo K HD p x N). apply Forall_forall. intros t Ht. destruct (Z.eq_dec (zexp (fst t) x) 0) as [e|n]; [exact e|]. exfalso.
  destruct (topp_occ vo Hvo K p _ t x N T Ht n) as [E|E].
  - rewrite <- E, (vo_irrefl vo Hvo) in Vx. discriminate.
  - pose proof (vo_trans vo Hvo _ _ _ Vx E) as X. rewrite (vo_irrefl vo Hvo) in X. discriminate.
Qed.

Section Rec.
Variable gcd : path -> poly -> poly -> outcome poly.
Hypothesis Hgcd : forall pa A B R, good A -> good B -> gcd pa A B = Ok R -> norm R /\ is_gcd K (graw A) (graw B) (graw R).

Definition eq_res (F G : poly) (r : poly + poly * poly) : Prop :=
  match r with
  | inl P => norm P /\ is_gcd K (graw F) (graw G) (graw P)
  | inr (F', G') => good F' /\ good G' /\ F' <> [] /\ G' <> [] /\ first_var F' = first_var G' /\ first_var F' <> 0%N /\
      forall g, is_gcd K (graw F') (graw G') g -> is_gcd K (graw F) (graw G) g
  end.
Lemma cont_nz (F c : poly) : F <> [] -> good F -> good c -> is_cont K (first_var F) (graw F) (graw c) -> c <> [].
Proof.
  intros Fne [NF _] [Nc _] (_ & Dc & _). apply (nz_iff vo Hvo K HD c Nc), (rd_nz K HD _ (graw F) Dc), (nz_iff vo Hvo K HD F NF), Fne.
Qed.
Lemma eq_loop_ok n : forall F G r, good F -> good G -> F <> [] -> G <> [] -> eq_loop vo n gcd F G = Ok r -> eq_res F G r.
Proof.
  induction n as [|n IH]; intros F G r GF GG Fne Gne E; cbn [eq_loop] in E; [discriminate|].
  destruct (N.eqb_spec (first_var F) (first_var G)) as [e|ne]; cbn [negb orb] in E.
  - destruct (N.eqb_spec (first_var F) 0) as [z|nz].
    + injection E as <-. apply (const_gcd_ok vo Hvo); try apply GF; try apply GG; auto. left. apply first_zero; assumption.
    + injection E as <-. exact (conj GF (conj GG (conj Fne (conj Gne (conj e (conj nz (fun g H => H))))))).
  - destruct (N.eqb_spec (first_var F) 0) as [z|nz]; cbn [orb] in E.
    { injection E as <-. apply (const_gcd_ok vo Hvo); try apply GF; try apply GG; auto. left. apply first_zero; assumption. }
    destruct (N.eqb_spec (first_var G) 0) as [z'|nz'].
    { injection E as <-. apply (const_gcd_ok vo Hvo); try apply GF; try apply GG; auto. right. apply first_zero; assumption. }
    destruct (vo (first_var F) (first_var G)) eqn:Vo.
    + destruct (cont_with _ F) as [c| | |] eqn:Ec; try discriminate. cbn [obind] in E.
      destruct (cont_with_ok vo Hvo _ F c GF (fun k A B R' => Hgcd _ A B R') Ec) as (Gc & _ & Ic). specialize (Ic Fne).
      pose proof (cont_nz F c Fne GF Gc Ic) as Cne.
      assert (Up : forall g, is_gcd K (graw c) (graw G) g -> is_gcd K (graw F) (graw G) g).
      { intros g. apply (gcd_cont_step K HD HG (first_var F)); [apply (nz_iff vo Hvo K HD G (proj1 GG)), Gne|apply below_free; assumption|exact Ic]. }
      specialize (IH c G r Gc GG Cne Gne E). destruct r as [P|[F' G']]; cbn in IH |- *.
      * destruct IH as [A B]. split; [exact A|apply Up, B].
      * destruct IH as (A1 & A2 & A3 & A4 & A5 & A6 & A7). repeat (split; [assumption|]). intros g Hgg. apply Up, A7, Hgg.
    + assert (Vo' : vo (first_var G) (first_var F) = true) by (destruct (vo_total vo Hvo (first_var F) (first_var G)) as [X|[X|X]]; [contradiction|congruence|exact X]).
      destruct (cont_with _ G) as [c| | |] eqn:Ec; try discriminate. cbn [obind] in E.
      destruct (cont_with_ok vo Hvo _ G c GG (fun k A B R' => Hgcd _ A B R') Ec) as (Gc & _ & Ic). specialize (Ic Gne).
      pose proof (cont_nz G c Gne GG Gc Ic) as Cne.
      assert (Up : forall g, is_gcd K (graw F) (graw c) g -> is_gcd K (graw F) (graw G) g).
      { intros g Hgg. apply (is_gcd_comm K). apply (gcd_cont_step K HD HG (first_var G) _ _ (graw c)); [apply (nz_iff vo Hvo K HD F (proj1 GF)), Fne|apply below_free; assumption|exact Ic|].
        apply (is_gcd_comm K), Hgg. }
      specialize (IH F c r GF Gc Fne Cne E). destruct r as [P|[F' G']]; cbn in IH |- *.
      * destruct IH as [A B]. split; [exact A|apply Up, B].
      * destruct IH as (A1 & A2 & A3 & A4 & A5 & A6 & A7). repeat (split; [assumption|]). intros g Hgg. apply Up, A7, Hgg.
Qed.
End Rec.

(** ** primitive parts *)
Lemma pp_first (F F' c : poly) x : good F -> F <> [] -> norm F' -> first_var F = x -> x <> 0%N -> vfree K x (graw c) ->
  graw F == rmul K (graw F') (graw c) -> F' <> [] /\ vars_P (varx x) F' /\ first_var F' = x.
Proof.
  intros GF Fne NF' EF Nx Fc E. pose proof (proj1 GF) as NF. pose proof (proj1 (nz_iff vo Hvo K HD F NF) Fne) as NzF.
  assert (NzF' : ~ graw F' == r0) by (intros X; apply NzF; rewrite E, X; ring).
  assert (Nzc : ~ graw c == r0) by (intros X; apply NzF; rewrite E, X; ring).
  assert (VF : vars_P (varx x) F') .
  { apply (dvd_vars vo Hvo K HD HG F' F); auto; [exists (graw c); rewrite E; ring|apply first_varx; assumption|apply varx_dec]. }
  split; [apply (nz_iff vo Hvo K HD F' NF'), NzF'|]. split; [exact VF|].
  destruct (first_spec vo Hvo K HD F x NF EF Nx) as (_ & _ & _ & _ & _ & Pd & _ & DF).
  destruct (deg_exists K HD (graw F') x) as [d' D']. destruct (deg_exists K HD (graw c) x) as [dc Dc].
  assert (dc = 0%N) as -> by (apply (deg_is_unique K (graw c) x); [exact Dc|split; [apply (deg_free K), Fc|left; reflexivity]]).
  pose proof (deg_is_mul K HD HG _ _ x _ _ NzF' Nzc D' Dc) as DX. rewrite <- E in DX.
  pose proof (deg_is_unique K (graw F) x _ _ DX DF) as Ed. destruct D' as [_ [Z0|(m & Hm & Em)]]; [lia|].
  apply (supp_in vo Hvo K HD F' m NF') in Hm as (t & Ht & Et). apply (first_below x F' t NF' VF Ht). rewrite (Et x) in Em. lia.
Qed.
Lemma lead_spec (F : poly) x : good F -> first_var F = x -> x <> 0%N ->
  good (leadcoeff_lex F) /\ graw (leadcoeff_lex F) == rcoeff K x (Z.to_N (first_deg F)) (graw F).
Proof.
  intros GF E Nx. destruct (first_spec vo Hvo K HD F x (proj1 GF) E Nx) as (t & r & Ef & T & D & Pd & L & _).
  unfold leadcoeff_lex. rewrite E. rewrite (lead_lex_cls vo Hvo K x (first_deg F) F Pd (proj1 GF) T L). split.
  - apply (cls_good vo Hvo); [lia|exact GF].
  - apply (cls_spec vo Hvo S (or_introl eq_refl) K HK x (first_deg F) F (proj1 GF)). lia.
Qed.

Theorem poly_gcd_ok fuel : forall pa F G R, good F -> good G ->
  poly_gcd vo msrt srt mcomp qcomp rcomp zcomp ps rnd fuel pa F G = Ok R -> norm R /\ is_gcd K (graw F) (graw G) (graw R).
Proof.
  induction fuel as [|f IH]; intros pa F G R GF GG E; cbn [poly_gcd] in E; [discriminate|].
  destruct F as [|tf rf]; [assert (E' : Ok G = Ok R) by (destruct G; exact E); injection E' as <-; split; [apply GG|apply (is_gcd_0_l K HD)]|].
  destruct G as [|tg rg]; [injection E as <-; split; [apply GF|apply (is_gcd_0_r K HD)]|].
  match type of E with (if ?c then _ else _) = _ => destruct c eqn:Ec end.
  { injection E as <-. apply (single_gcd_ok vo Hvo tf rf tg rg (proj1 GF) (proj1 GG)).
    destruct rf; [left; reflexivity|]. destruct rg; [right; reflexivity|discriminate]. }
  clear Ec. set (F0 := tf :: rf) in *. set (G0 := tg :: rg) in *.
  pose proof (fun l A B R' GA GB => IH l A B R' GA GB) as Hrec. clear IH.
  destruct (eq_loop vo f _ F0 G0) as [r| | |] eqn:Er; try discriminate. cbn [obind] in E.
  eapply eq_loop_ok in Er; [|intros ? ? ? ?; apply Hrec|exact GF|exact GG|discriminate|discriminate].
  destruct r as [P|[F G]]; [injection E as <-; exact Er|].
  destruct Er as (GF1 & GG1 & Fne & Gne & Ev & Nx & Up). set (x := first_var F) in *.
  destruct (cont_with _ F) as [cF| | |] eqn:EcF; try discriminate. cbn [obind] in E.
  destruct (cont_with_ok vo Hvo _ F cF GF1 (fun k A B R' => Hrec _ A B R') EcF) as (GcF & _ & IcF). specialize (IcF Fne). fold x in IcF.
  destruct (cont_with _ G) as [cG| | |] eqn:EcG; try discriminate. cbn [obind] in E.
  destruct (cont_with_ok vo Hvo _ G cG GG1 (fun k A B R' => Hrec _ A B R') EcG) as (GcG & _ & IcG). specialize (IcG Gne). rewrite <- Ev in IcG.
  destruct (poly_gcd _ _ _ _ _ _ _ _ _ _ _ cF cG) as [cg| | |] eqn:Eg; try discriminate. cbn [obind] in E.
  destruct (Hrec _ _ _ _ GcF GcG Eg) as [Ncg Igc].
  assert (CFne : cF <> []) by (apply (cont_nz F cF); assumption).
  assert (CGne : cG <> []) by (apply (cont_nz G cG); try assumption; rewrite <- Ev; exact IcG).
  destruct (pdiv vo qcomp f F cF) as [F'| | |] eqn:EF; try discriminate. cbn [obind] in E.
  destruct (pdiv_spec f F cF F' (proj1 GF1) (proj1 GcF) CFne (proj1 (proj2 IcF)) EF) as [NF' RF].
  destruct (pdiv vo qcomp f G cG) as [G'| | |] eqn:EG; try discriminate. cbn [obind] in E.
  destruct (pdiv_spec f G cG G' (proj1 GG1) (proj1 GcG) CGne (proj1 (proj2 IcG)) EG) as [NG' RG].
  destruct (pp_first F F' cF x GF1 Fne NF' eq_refl Nx (proj1 IcF) RF) as (F'ne & VF' & EF').
  destruct (pp_first G G' cG x GG1 Gne NG' (eq_sym Ev) Nx (proj1 IcG) RG) as (G'ne & VG' & EG').
  destruct (lead_spec F' x (varx_good x F' NF' VF') EF' Nx) as [GLF ELF]. destruct (lead_spec G' x (varx_good x G' NG' VG') EG' Nx) as [GLG ELG].
  destruct (poly_gcd _ _ _ _ _ _ _ _ _ _ _ (leadcoeff_lex F') (leadcoeff_lex G')) as [lc| | |] eqn:El; try discriminate. cbn [obind] in E.
  destruct (Hrec _ _ _ _ GLF GLG El) as [Nlc (Dlc & _)].
  assert (Dlc' : graw lc %| rcoeff K x (Z.to_N (first_deg F')) (graw F')) by (apply (rdivides_proper K HD _ _ (reflexivity _) _ _ ELF); exact Dlc).
  apply (crt_loop_ok x F' G' lc cg Nx NF' NG' VF' VG' EF' EG' Nlc Dlc' Ncg _ (fun pa0 A B R' => Hrec _ A B R')) in E;
    [|split; [constructor|split; constructor]|constructor].
  destruct E as (NR & H & d & ER & HF & HG' & DH & UD). split; [exact NR|]. apply Up. apply (is_gcd_proper K HD _ _ (reflexivity _) _ _ (reflexivity _) _ _ ER).
  apply (gcd_from_pp K HD HG x (graw F) (graw G) (graw cF) (graw cG) (graw F') (graw G')); try assumption.
  - apply (nz_iff vo Hvo K HD F (proj1 GF1)), Fne.
  - apply (nz_iff vo Hvo K HD G (proj1 GG1)), Gne.
  - intros D e D1 D2 De Le. assert (e = d) as ->; [|exact DH]. pose proof (dle _ x _ _ DH Le). pose proof (dle _ x _ _ De (UD D D1 D2)). lia.
Qed.

(** ** contents and primitive parts *)
Theorem poly_cont_ok fuel pa F c : good F ->
  poly_cont vo msrt srt mcomp qcomp rcomp zcomp ps rnd fuel pa F = Ok c ->
  good c /\ (F = [] -> c = []) /\ (F <> [] -> is_cont K (first_var F) (graw F) (graw c)).
Proof.
  intros GF E. apply (cont_with_ok vo Hvo _ F c GF) in E; [exact E|]. intros k A B R GA GB. apply poly_gcd_ok; assumption.
Qed.
End PG.
