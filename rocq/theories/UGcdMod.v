(** * Univariate gcd over the integers: the images modulo primes and the CRT loop (UGcd.v). *)
From Coq Require Import Ring_theory Ring Setoid Morphisms Znumtheory Sorting.Sorted.
From Verif Require Import Prelude Coef Spec SpecProofs SpecOps SpecOpsProofs GcdDom GcdPoly GcdMath OrderSpec PairVec PairVecProofs
  Mono MonoStruct MonoStructProofs Heap Poly PolyMulProofs Div PolyDivProofs PolyOps PolyOpsGen ConvertProofs GcdHom GcdRep Zp NumSpec ZpProofs
  Gcd GcdTerm GcdProofs Dense DenseWord DensePoly DenseMul DenseDiv DenseGcd DenseFuel DenseSparse UGcd UGcdBase UGcdProofs.
Local Open Scope Z_scope.

Definition maxdeg : Z := 2 ^ 62 - 1.

(** ** modulo a prime *)
Section Mod.
Context (p : Z) (Hp : modulus p) (Pr : prime p).
Notation K := (Zpc p Hp).
Notation phi := (zpc_of p Hp).
Let HF : field_ok K := Zpc_field p Hp Pr.
Let HD : domain_ok K := field_domain K HF.
Let HK : ring_ok K := domain_ring K HD.
Local Existing Instance HK.
Add Ring Cring : (ring_laws K HK).
Add Ring Rring : (rring K HK) (setoid (req_equiv K) (rring_ext K HK)).
Notation norm := (normal uok (m_gt uniS) K).
Notation graw := (graw usm).
Notation "a == b" := (req K a b) (at level 70).
Notation "a %| b" := (rdivides K a b) (at level 70).

Lemma gcd_scale a b g c i : is_gcd K a b g -> rmul K (rconst i) (rconst c) == r1 K -> is_gcd K a b (rmul K (rconst c) g).
Proof.
  intros (A & B & U) E. split; [|split].
  - destruct A as [q Eq]. exists (rmul K q (rconst i)). rewrite Eq. transitivity (rmul K (rmul K q g) (rmul K (rconst i) (rconst c))); [rewrite E; ring|ring].
  - destruct B as [q Eq]. exists (rmul K q (rconst i)). rewrite Eq. transitivity (rmul K (rmul K q g) (rmul K (rconst i) (rconst c))); [rewrite E; ring|ring].
  - intros d D1 D2. apply (rd_mull K HD). apply U; assumption.
Qed.
Lemma cst_unit c : residue p c -> c <> 0 -> exists i, rmul K (rconst i) (rconst (phi c)) == r1 K.
Proof.
  intros Rc Nc. assert (N : phi c <> c0 K).
  { intros E. apply (f_equal (@proj1_sig _ _)) in E. rewrite v_of in E. change (proj1_sig (c0 K)) with (0 mod p) in E. unfold residue in Rc.
    rewrite Z.mod_0_l, Z.mod_small in E by lia. contradiction. }
  exists (cquo K (c1 K) (phi c)). rewrite (rconst_mul K). rewrite (field_quo K HF (c1 K) (phi c) N). reflexivity.
Qed.
Lemma umod_gcd_ok fuel (G F : list (Z * zpc p)) (Lc : zpc p) deg Q d : norm F -> norm G -> udeg F < maxdeg -> udeg G < maxdeg -> Lc <> c0 K ->
  umod_gcd p Hp fuel G F Lc deg = Ok (Some (Q, d)) ->
  norm Q /\ Q <> [] /\ udeg Q = d /\ 0 <= d <= deg /\ is_gcd K (graw F) (graw G) (graw Q).
Proof.
  intros NF NG SF SG NL E. unfold umod_gcd in E. destruct F as [|tf rf]; [discriminate|]. destruct G as [|tg rg]; [discriminate|].
  set (F := tf :: rf) in *. set (G := tg :: rg) in *.
  destruct (of_up_ok p Hp F NF) as (RF & TF & EF & LF). destruct (of_up_ok p Hp G NG) as (RG & TG & EG & LG).
  assert (SmF : small (of_up F)). { unfold small. rewrite LF. cbn [F udeg] in SF |- *. clear - SF. unfold maxdeg in SF. lia. }
  assert (SmG : small (of_up G)). { unfold small. rewrite LG. cbn [G udeg] in SG |- *. clear - SG. unfold maxdeg in SG. lia. }
  set (A := of_up F) in *. set (B := of_up G) in *.
  destruct (d_gcd p fuel A B) as [r| | |] eqn:Er; try discriminate. cbn [obind] in E.
  set (fl := (fuel + (length A + length B + 2))%nat).
  destruct (d_gcd_ok p Hp Pr fl A B (conj RF TF) (conj RG TG) SmF SmG ltac:(unfold fl; lia)) as (g & Eg & Og & Ig & Ng).
  assert (Lfl : (fuel <= fl)%nat) by (unfold fl; lia).
  rewrite (d_gcd_mono p _ fl _ _ _ Lfl Er) in Eg. injection Eg as <-.
  assert (Nr : r <> []). { intros ->. destruct (Ng eq_refl) as [C _]. apply (f_equal (@length _)) in C. rewrite LF in C. cbn [length F] in C. lia. }
  destruct Og as [Rr Tr]. destruct (exists_last Nr) as (r' & l & El). rewrite El in E at 1. rewrite rev_unit in E.
  pose proof (stripped_top r Tr Nr) as Ln. pose proof (res_nth p Hp r (length r - 1) Rr) as Rl.
  assert (Enl : nth (length r - 1) r 0 = l). { rewrite El, app_length. cbn [length]. rewrite Nat.add_sub, app_nth2, Nat.sub_diag by lia. reflexivity. }
  rewrite Enl in Ln, Rl. unfold residue in Rl.
  destruct (inv_prime_ok p l Hp ltac:(lia)) as (i & Ei & Ri & Vi).
  { apply Zgcd_1_rel_prime, rel_prime_sym. apply prime_rel_prime; [exact Pr|]. intros [q Eq]. assert (0 < q) by nia. nia. }
  rewrite Ei in E. cbn [obind] in E. set (c := nmod_mul p i (proj1_sig Lc)) in *.
  pose proof (zpc_res p Lc) as RL. unfold residue in RL, Ri.
  assert (Ec : c = (i * proj1_sig Lc) mod p). { unfold c. apply nmod_mul_ok; [exact Hp|exact Ri|]. unfold modulus in Hp. lia. }
  assert (Rc : residue p c) by (rewrite Ec; apply Z.mod_pos_bound; unfold modulus in Hp; lia).
  assert (NLv : proj1_sig Lc <> 0). { intros X. apply NL. apply zpc_eq. rewrite X. cbn [c0 Zpc]. rewrite v_of. symmetry. apply Z.mod_0_l, (p_nz p Hp). }
  assert (Ni : i <> 0). { intros X. rewrite X, Z.mul_0_l, Z.mod_0_l in Vi by apply (p_nz p Hp). discriminate. }
  assert (Nc : c <> 0).
  { rewrite Ec. intros X. apply Z.mod_divide in X; [|apply (p_nz p Hp)]. apply (prime_mult p Pr) in X as [X|X]; apply Z.divide_pos_le in X; lia. }
  destruct (scalar_mul_ok p Hp Pr c r Rc Rr Tr) as (R2 & T2 & E2 & L2). specialize (L2 Nc). set (r2 := d_scalar_mul p c r) in *.
  destruct (Z.of_nat (length r2) - 1 >? deg) eqn:Ed; [discriminate|]. injection E as <- <-.
  assert (Nr2 : r2 <> []) by (intros X; apply Nr; apply length_zero_iff_nil; rewrite <- L2, X; reflexivity).
  destruct (to_up_ok p Hp r2 R2) as [NQ EQ]. destruct (to_up_head p Hp r2 T2 Nr2) as [rr Hh].
  assert (Lp : (0 < length r2)%nat) by (destruct r2; [congruence|cbn; lia]).
  split; [exact NQ|]. split; [rewrite Hh; discriminate|]. split; [rewrite Hh; cbn [udeg fst]; lia|]. split.
  { clear - Ed Lp. rewrite Z.gtb_ltb in Ed. apply Z.ltb_ge in Ed. lia. }
  destruct (cst_unit c Rc Nc) as [ii Eii].
  apply (is_gcd_proper K HD _ _ (symmetry EF) _ _ (symmetry EG) _ _ EQ).
  apply (is_gcd_proper K HD _ _ (reflexivity _) _ _ (reflexivity _) _ _ E2). apply (gcd_scale _ _ _ _ ii Ig Eii).
Qed.

(** ** the image of an integer polynomial *)
Notation pmod := (p_mod K phi).
Notation normZ := (normal uok (m_gt uniS) Zc).
Lemma upmod_ok (F : upz) : normZ F -> norm (pmod F) /\ graw (pmod F) == rmapc phi (graw F).
Proof.
  intros N. destruct (mod_spec uniS uok usm uniS_ok Zc K (domain_ring Zc Zc_domain) HK phi (phi_0 p Hp) F N) as [A B]. split; [exact A|].
  intros s. rewrite (B s). symmetry. apply (coef_rmapc Zc K phi (phi_0 p Hp) (phi_add p Hp)).
Qed.
Lemma upmod_head t (r : upz) : Z.rem (snd t) p <> 0 -> pmod (t :: r) = (fst t, phi (snd t)) :: pmod r.
Proof.
  intros H. unfold p_mod. cbn [flat_map]. destruct (is0_spec K HK (phi (snd t))) as [E|E]; [exfalso; apply (phi_nz p Hp _ H E)|]. reflexivity.
Qed.
Lemma umod_degree tf rf tg rg d :
  let F := tf :: rf in let G := tg :: rg in
  normZ F -> normZ G -> Z.rem (snd tf) p <> 0 ->
  (forall D, rdivides K D (graw (pmod F)) -> rdivides K D (graw (pmod G)) -> deg_le K D 0%N (Z.to_N d)) ->
  forall D, rdivides Zc D (graw F) -> rdivides Zc D (graw G) -> deg_le Zc D 0%N (Z.to_N d).
Proof.
  intros F G NF NG Hf U D DF DG.
  destruct (upmod_ok F NF) as [NF' RF]. destruct (upmod_ok G NG) as [NG' RG]. pose proof (upmod_head tf rf Hf) as Eh. fold F in Eh.
  pose proof (udeg_is Zc Zc_domain tf rf NF) as Dg. rewrite Eh in NF'. pose proof (udeg_is K HD _ _ NF') as Dg'. cbn [fst] in Dg'. rewrite <- Eh in Dg', NF'.
  apply (hom_deg Zc K Zc_domain Z_cgcd HD (field_cgcd K HF) (rmapc phi)) with (F := graw F) (e := Z.to_N (fst tf)).
  - intros a b c. apply (rmapc_mul Zc K phi (phi_0 p Hp) (phi_add p Hp) (phi_mul p Hp)).
  - intros a n. apply (rmapc_deg Zc K phi (phi_0 p Hp) (phi_add p Hp)).
  - apply (unz Zc Zc_domain F NF). discriminate.
  - intros E. refine (proj1 (unz K HD (pmod F) NF') _ _); [rewrite Eh; discriminate|]. rewrite RF. exact E.
  - exact Dg.
  - destruct Dg' as [B1 B2]. split.
    + intros m Hm. apply B1. rewrite (RF m). exact Hm.
    + destruct B2 as [B2|(m & Hm & B2)]; [left; exact B2|right]. exists m. rewrite <- (RF m). auto.
  - exact DF.
  - apply U.
    + apply (rdivides_proper K HD _ _ (reflexivity _) _ _ RF), (rmapc_dvd Zc K phi (phi_0 p Hp) (phi_add p Hp) (phi_mul p Hp)), DF.
    + apply (rdivides_proper K HD _ _ (reflexivity _) _ _ RG), (rmapc_dvd Zc K phi (phi_0 p Hp) (phi_add p Hp) (phi_mul p Hp)), DG.
Qed.
(** a divisor has at most the degree of a nonzero multiple *)
Lemma udvd_deg (Q : list (Z * zpc p)) D : norm Q -> Q <> [] -> D %| graw Q -> deg_le K D 0%N (Z.to_N (udeg Q)).
Proof.
  intros NQ Qne [q E]. destruct Q as [|t r]; [congruence|]. pose proof (proj1 (unz K HD _ NQ) Qne) as Nz.
  assert (Nq : ~ q == r0) by (intros X; apply Nz; rewrite E, X; ring). assert (Nd : ~ D == r0) by (intros X; apply Nz; rewrite E, X; ring).
  destruct (deg_exists K HD q 0%N) as [a Da]. destruct (deg_exists K HD D 0%N) as [b Db].
  pose proof (deg_is_mul K HD (field_cgcd K HF) _ _ _ _ _ Nq Nd Da Db) as X. rewrite <- E in X.
  pose proof (deg_is_unique K _ _ _ _ X (udeg_is K HD t r NQ)) as Y. apply (deg_le_weak K D 0%N b); [cbn [udeg]; lia|apply Db].
Qed.

(** ** polynomial_GCD(upolynomial_<Zp>): the monic gcd *)
Lemma inv_one (c : zpc p) i : inv_prime (proj1_sig c) p = Ok i -> c <> c0 K -> cmul K c (phi i) = c1 K.
Proof.
  intros Ei Nc. pose proof (zpc_res p c) as Rc. unfold residue in Rc.
  assert (Nv : proj1_sig c <> 0). { intros X. apply Nc. apply zpc_eq. rewrite X. cbn [c0 Zpc]. rewrite v_of. symmetry. apply Z.mod_0_l, (p_nz p Hp). }
  destruct (inv_prime_ok p (proj1_sig c) Hp ltac:(lia)) as (i' & Ei' & Ri & Vi).
  { apply Zgcd_1_rel_prime, rel_prime_sym. apply prime_rel_prime; [exact Pr|]. intros [q Eq]. assert (0 < q) by nia. nia. }
  rewrite Ei in Ei'. assert (i = i') by congruence. subst i'.
  apply zpc_eq. change (cmul K c (phi i)) with (zpc_mul p Hp c (phi i)). change (c1 K) with (zpc_of p Hp 1). rewrite v_mul, !v_of. unfold residue in Ri. rewrite Zmult_mod_idemp_r, Z.mul_comm, Vi, Z.mod_1_l by (unfold modulus in Hp; lia). reflexivity.
Qed.
Lemma scale_norm (F : list (Z * zpc p)) c : norm F -> c <> c0 K -> norm (map (fun u => (fst u, cmul K (snd u) c)) F).
Proof.
  intros (N1 & N2 & N3) Ni. split; [|split].
  - unfold all_ok. rewrite Forall_map. exact N1.
  - unfold desc. rewrite map_map. exact N2.
  - unfold nonzero. rewrite Forall_map. unfold nonzero in N3. rewrite Forall_forall in *. intros t Ht X. cbn [snd] in X.
    apply (domain_integral K HD) in X as [X|X]; [apply (N3 t Ht X)|apply (Ni X)].
Qed.
Lemma scale_req (F : list (Z * zpc p)) c : graw (map (fun u => (fst u, cmul K (snd u) c)) F) == rmul K (rconst c) (graw F).
Proof.
  induction F as [|t F IH]; [change (r0 == rmul K (rconst c) r0); ring|].
  cbn [map]. rewrite !graw_cons. cbn [fst snd]. rewrite IH.
  assert (E1 : [(usm (fst t), cmul K (snd t) c)] == rmul K (rconst c) [(usm (fst t), snd t)]).
  { cbn [Spec.rmul flat_map map app rconst fst snd]. apply (req_single K); [reflexivity|]. pose proof (ring_laws K HK) as RL. apply (Rmul_comm RL). }
  rewrite E1. ring.
Qed.
Lemma umonic_cons0 m c (r : list (Z * zpc p)) :
  obind (zp_inv p (proj1_sig (snd (m, c)))) (fun i => Ok (map (fun u => (fst u, cmul K (snd u) (phi i))) ((m, c) :: r))) = umonic p Hp ((m, c) :: r).
Proof. exact eq_refl. Qed.
Lemma zp_inv_prime a : inv_prime a p = zp_inv p a. Proof. exact eq_refl. Qed.
Lemma umonic_cons m c (r : list (Z * zpc p)) : forall o, inv_prime (proj1_sig c) p = o ->
  obind o (fun i => Ok (map (fun u => (fst u, cmul K (snd u) (phi i))) ((m, c) :: r))) = umonic p Hp ((m, c) :: r).
Proof. intros o E. rewrite <- umonic_cons0, <- zp_inv_prime. change (snd (m, c)) with c. rewrite E. exact eq_refl. Qed.
Lemma umonic_ok (r R : list (Z * zpc p)) : norm r -> umonic p Hp r = Ok R ->
  norm R /\ udeg R = udeg r /\ (exists m l, R = (m, c1 K) :: l) /\ exists c i, graw R == rmul K (rconst c) (graw r) /\ rmul K (rconst i) (rconst c) == r1 K.
Proof.
  intros N E. destruct r as [|[m c] r]; [discriminate|].   pose proof (unin K _ _ N (or_introl eq_refl)) as [Om Nc]. cbn [fst snd] in Om, Nc.
  destruct (inv_prime (proj1_sig c) p) as [i| | |] eqn:Ei; pose proof (eq_trans (umonic_cons m c r _ Ei) E) as E'; cbn [obind] in E'; try discriminate E'. clear E.
  pose proof (inv_one c i Ei Nc) as Eone. set (k := phi i) in *. clearbody k. clear Ei i.
  assert (ER : map (fun u => (fst u, cmul K (snd u) k)) ((m, c) :: r) = R) by (injection E'; auto). clear E'. subst R.
  assert (Ni : k <> c0 K) by (intros X; apply (domain_nontrivial K HD); rewrite <- Eone, X; ring).
  split; [apply (scale_norm _ k N Ni)|]. split; [reflexivity|]. split.
  - cbn [map fst snd]. rewrite Eone. eauto.
  - exists k, c. split; [apply scale_req|rewrite (rconst_mul K), Eone; reflexivity].
Qed.
Theorem uzp_gcd_ok fuel (F G R : list (Z * zpc p)) : norm F -> norm G -> udeg F < maxdeg -> udeg G < maxdeg ->
  uzp_gcd p Hp fuel F G = Ok R ->
  norm R /\ is_gcd K (graw F) (graw G) (graw R) /\ (F = [] -> G = [] -> R = []) /\ (F <> [] \/ G <> [] -> exists m l, R = (m, c1 K) :: l).
Proof.
  intros NF NG SF SG E. unfold uzp_gcd in E.
  destruct F as [|tf rf]; [destruct G as [|tg rg]|destruct G as [|tg rg]].
  - injection E as <-. split; [exact NF|]. split; [apply (is_gcd_0_l K HD)|]. split; [reflexivity|]. intros [H|H]; congruence.
  - destruct (umonic_ok _ _ NG E) as (A & _ & B & c & i & E1 & E2). split; [exact A|]. split; [|split; [discriminate|auto]].
    apply (is_gcd_proper K HD _ _ (reflexivity _) _ _ (reflexivity _) _ _ E1). apply (gcd_scale _ _ _ _ i); [apply (is_gcd_0_l K HD)|exact E2].
  - destruct (umonic_ok _ _ NF E) as (A & _ & B & c & i & E1 & E2). split; [exact A|]. split; [|split; [discriminate|auto]].
    apply (is_gcd_proper K HD _ _ (reflexivity _) _ _ (reflexivity _) _ _ E1). apply (gcd_scale _ _ _ _ i); [apply (is_gcd_0_r K HD)|exact E2].
  - match type of E with obind ?r _ = _ => destruct r as [[[Q d]|]| | |] eqn:Er; try discriminate end. cbn [obind] in E.
    apply umod_gcd_ok in Er as (NQ & _ & _ & _ & IQ); try assumption; [|apply (domain_nontrivial K HD)].
    destruct (umonic_ok _ _ NQ E) as (A & _ & B & c & i & E1 & E2). split; [exact A|]. split; [|split; [discriminate|auto]].
    apply (is_gcd_proper K HD _ _ (reflexivity _) _ _ (reflexivity _) _ _ E1). apply (gcd_scale _ _ _ _ i); [apply (is_gcd_comm K), IQ|exact E2].
Qed.

(** ** it always returns *)
Lemma umod_gcd_runs (G F : list (Z * zpc p)) (Lc : zpc p) : norm F -> norm G -> F <> [] -> G <> [] -> udeg F < maxdeg -> udeg G < maxdeg ->
  exists n Q d, forall fuel deg, (n <= fuel)%nat -> umod_gcd p Hp fuel G F Lc deg = Ok (if d >? deg then None else Some (Q, d)).
Proof.
  intros NF NG Fne Gne SF SG.
  destruct (of_up_ok p Hp F NF) as (RF & TF & EF & LF). destruct (of_up_ok p Hp G NG) as (RG & TG & EG & LG).
  assert (SmF : small (of_up F)). { unfold small. rewrite LF. destruct F as [|t r]; [congruence|]. cbn [udeg] in SF. clear - SF. unfold maxdeg in SF. lia. }
  assert (SmG : small (of_up G)). { unfold small. rewrite LG. destruct G as [|t r]; [congruence|]. cbn [udeg] in SG. clear - SG. unfold maxdeg in SG. lia. }
  set (A := of_up F) in *. set (B := of_up G) in *. set (n := (length A + length B + 2)%nat).
  destruct (d_gcd_ok p Hp Pr n A B (conj RF TF) (conj RG TG) SmF SmG ltac:(unfold n; lia)) as (r & Er & Or & Ir & Nr0).
  assert (Nr : r <> []). { intros ->. destruct (Nr0 eq_refl) as [C _]. apply (f_equal (@length _)) in C. rewrite LF in C. destruct F; [congruence|]. cbn [length] in C. lia. }
  destruct Or as [Rr Tr]. destruct (exists_last Nr) as (r' & l & El).
  pose proof (stripped_top r Tr Nr) as Ln. pose proof (res_nth p Hp r (length r - 1) Rr) as Rl.
  assert (Enl : nth (length r - 1) r 0 = l). { rewrite El, app_length. cbn [length]. rewrite Nat.add_sub, app_nth2, Nat.sub_diag by lia. reflexivity. }
  rewrite Enl in Ln, Rl. unfold residue in Rl.
  destruct (inv_prime_ok p l Hp ltac:(lia)) as (i & Ei & Ri & Vi).
  { apply Zgcd_1_rel_prime, rel_prime_sym. apply prime_rel_prime; [exact Pr|]. intros [q Eq]. assert (0 < q) by nia. nia. }
  exists n, (to_up p Hp (d_scalar_mul p (nmod_mul p i (proj1_sig Lc)) r)), (Z.of_nat (length (d_scalar_mul p (nmod_mul p i (proj1_sig Lc)) r)) - 1).
  intros fuel deg Lf. unfold umod_gcd. fold A. fold B. rewrite (d_gcd_mono p _ fuel _ _ _ Lf Er).
  destruct F as [|f0 F0]; [congruence|]. destruct G as [|g0 G0]; [congruence|]. cbn [obind]. rewrite El at 1. rewrite rev_unit, Ei. cbn [obind]. reflexivity.
Qed.
Lemma umonic_runs (r : list (Z * zpc p)) : norm r -> r <> [] -> exists R, umonic p Hp r = Ok R.
Proof.
  intros N Ne. destruct r as [|[m c] r]; [congruence|]. pose proof (unin K _ _ N (or_introl eq_refl)) as [_ Nc]. cbn [snd] in Nc.
  pose proof (zpc_res p c) as Rc. unfold residue in Rc.
  assert (Nv : proj1_sig c <> 0). { intros X. apply Nc. apply zpc_eq. rewrite X. change (c0 K) with (zpc_of p Hp 0). rewrite v_of. symmetry. apply Z.mod_0_l, (p_nz p Hp). }
  destruct (inv_prime_ok p (proj1_sig c) Hp ltac:(lia)) as (i & Ei & _).
  { apply Zgcd_1_rel_prime, rel_prime_sym. apply prime_rel_prime; [exact Pr|]. intros [q Eq]. assert (0 < q) by nia. nia. }
  exists (map (fun u => (fst u, cmul K (snd u) (phi i))) ((m, c) :: r)). symmetry. exact (umonic_cons m c r _ Ei).
Qed.
Theorem uzp_gcd_runs (F G : list (Z * zpc p)) : norm F -> norm G -> udeg F < maxdeg -> udeg G < maxdeg ->
  exists n R, forall fuel, (n <= fuel)%nat -> uzp_gcd p Hp fuel F G = Ok R.
Proof.
  intros NF NG SF SG. destruct F as [|tf rf]; [destruct G as [|tg rg]|destruct G as [|tg rg]].
  - exists 0%nat, []. reflexivity.
  - destruct (umonic_runs _ NG ltac:(discriminate)) as [R E]. exists 0%nat, R. intros fuel _. exact E.
  - destruct (umonic_runs _ NF ltac:(discriminate)) as [R E]. exists 0%nat, R. intros fuel _. exact E.
  - set (F := tf :: rf) in *. set (G := tg :: rg) in *. assert (Fne : F <> []) by discriminate. assert (Gne : G <> []) by discriminate.
    destruct (umod_gcd_runs F G (c1 K) NG NF Gne Fne SG SF) as (n & Q & d & H).
    assert (Ed : umod_gcd p Hp n F G (c1 K) d = Ok (Some (Q, d))). { rewrite (H n d (le_n n)). rewrite Z.gtb_ltb, Z.ltb_irrefl. reflexivity. }
    apply umod_gcd_ok in Ed as (NQ & Qne & DQ & Bd & (I1 & I2 & _)); try assumption; [|apply (domain_nontrivial K HD)].
    destruct (umonic_runs Q NQ Qne) as [R E]. exists n, R. intros fuel Lf. 
    assert (Le : forall t r, norm (t :: r) -> graw Q %| graw (t :: r) -> d <= fst t).
    { intros t r N Dv. pose proof (udvd_deg (t :: r) (graw Q) N ltac:(discriminate) Dv) as L. destruct Q as [|u rq]; [congruence|]. cbn [udeg] in DQ, L.
      pose proof (unin K _ _ NQ (or_introl eq_refl)) as [O1 O2]. specialize (L (usm (fst u))). rewrite (uin_coef K HD _ u NQ (or_introl eq_refl)) in L. specialize (L O2).
      rewrite exp_usm in L. cbn [N.eqb] in L. pose proof (unin K _ _ N (or_introl eq_refl)) as [O3 _]. lia. }
    unfold uzp_gcd. unfold F at 1, G at 1. cbv iota. fold F. fold G. rewrite (H fuel _ Lf).
    pose proof (Le tf rf NF I2). pose proof (Le tg rg NG I1). cbn [udeg F G]. rewrite Z.gtb_ltb. destruct (Z.ltb_spec (Z.min (fst tf) (fst tg)) d); [lia|]. cbn [obind]. exact E.
Qed.
End Mod.
