(** * Conversion between dense and sparse univariate polynomials over Z/p. *)
From Coq Require Import Ring_theory Ring Setoid Morphisms Znumtheory.
From Verif Require Import Prelude Coef Spec SpecProofs SpecOpsProofs OrderSpec NumSpec Zp ZpProofs MonoStruct Dense DenseWord DensePoly.
Local Open Scope Z_scope.

(** [upolynomial_<Zp>] is a list of (degree, coefficient); dense_upoly_zp.hh 1091-1100 and 1108-1118 *)
Definition of_up {p : Z} (F : list (Z * zpc p)) : dpoly := of_sparse (map (fun t => (fst t, proj1_sig (snd t))) F).
Definition to_up (p : Z) (Hp : modulus p) (l : dpoly) : list (Z * zpc p) := map (fun t => (fst t, zpc_of p Hp (snd t))) (to_sparse l).

Section DS.
Variable p : Z.
Hypothesis Hp : modulus p.
Notation K := (Zpc p Hp).
Let HK : ring_ok K := Zpc_ring p Hp.
Local Existing Instance HK.
Add Ring Rring : (rring K HK) (setoid (req_equiv K) (rring_ext K HK)).
Notation "a == b" := (req K a b) (at level 70).
Notation rp := (rpoly (zpc p)).
Notation cst := (cst p Hp).
Notation D := (dval p Hp).
Notation Xp n := (rpow K (rvar K 0%N) n).
Notation res := (Forall (residue p)).
Notation "f [*] g" := (rmul K f g) (at level 40, left associativity).
Notation "f [+] g" := (radd f g) (at level 50, left associativity).

Lemma cmul_1l (c : zpc p) : cmul K (c1 K) c = c.
Proof.
  apply zpc_eq. cbn [cmul c1 Zpc]. rewrite v_mul, v_of, Zmult_mod_idemp_l, Z.mul_1_l. apply Z.mod_small. apply (zpc_res p).
Qed.
Lemma cadd_0r (c : zpc p) : cadd K c (c0 K) = c.
Proof.
  apply zpc_eq. cbn [cadd c0 Zpc]. rewrite v_add, v_of, Z.mod_0_l, Z.add_0_r by apply (p_nz p Hp). apply Z.mod_small. apply (zpc_res p).
Qed.
Lemma term_X n (c : zpc p) : [([(0%N, N.of_nat n)], c)] == rconst c [*] Xp n.
Proof.
  induction n as [|n IH].
  - cbn [rpow]. transitivity (rconst c); [|ring]. unfold rconst. apply (req_single K); [|reflexivity]. intros v. cbn [exp]. destruct (N.eqb 0 v); reflexivity.
  - cbn [rpow]. transitivity (rvar K 0%N [*] (rconst c [*] Xp n)); [|ring]. rewrite <- IH. unfold rvar, rmul. cbn [flat_map map app fst snd].
    apply (req_single K); [|symmetry; apply cmul_1l]. intros v. cbn [exp]. destruct (N.eqb 0 v); lia.
Qed.
Lemma zpc_of_val (c : zpc p) : zpc_of p Hp (proj1_sig c) = c.
Proof. apply zpc_eq. rewrite v_of. apply Z.mod_small. apply (zpc_res p). Qed.
Lemma uterm e (c : zpc p) : 0 <= e -> [(usm e, c)] == cst (proj1_sig c) [*] Xp (Z.to_nat e).
Proof.
  intros He. unfold cst. rewrite zpc_of_val, <- term_X. unfold usm. rewrite Z_nat_N. reflexivity.
Qed.

(** ** sparse to dense *)
Lemma set_nth_length i : forall l x, length (set_nth i l x) = length l.
Proof. induction i as [|i IH]; intros [|a l] x; cbn [set_nth length]; auto. Qed.
Lemma set_nth_nth i : forall l x j, nth j (set_nth i l x) 0 = if Nat.eqb i j && Nat.ltb i (length l) then x else nth j l 0.
Proof.
  induction i as [|i IH]; intros [|a l] x [|j]; cbn [set_nth nth length]; try reflexivity; try rewrite IH; try (rewrite andb_false_r; reflexivity).
  change (Nat.eqb (S i) (S j)) with (Nat.eqb i j). change (Nat.ltb (S i) (S (length l))) with (Nat.ltb i (length l)). reflexivity.
Qed.
Lemma set_nth_D i : forall l x, (i < length l)%nat -> nth i l 0 = 0 -> D (set_nth i l x) == D l [+] cst x [*] Xp i.
Proof.
  induction i as [|i IH]; intros [|a l] x L N; cbn [length] in L; try lia; cbn [set_nth]; rewrite !D_cons.
  - cbn [nth] in N. subst a. rewrite cst_0. cbn [rpow]. ring.
  - rewrite (IH l x ltac:(lia) N). cbn [rpow]. ring.
Qed.
Lemma set_nth_res i l x : res l -> residue p x -> res (set_nth i l x).
Proof. intros R Hx. revert i. induction R as [|a l Ha R IH]; intros [|i]; cbn [set_nth]; constructor; auto. Qed.
Notation upo := (normal uok (m_gt uniS) K).
Definition numb (F : list (Z * zpc p)) : list (Z * Z) := map (fun t => (fst t, proj1_sig (snd t))) F.
Lemma fold_set F : upo F -> forall l, res l -> (forall t, In t F -> (Z.to_nat (fst t) < length l)%nat /\ nth (Z.to_nat (fst t)) l 0 = 0) ->
  let l' := fold_left (fun l u => set_nth (Z.to_nat (fst u)) l (snd u)) (numb F) l in
  res l' /\ length l' = length l /\ D l' == D l [+] graw usm F /\
  forall j, (forall t, In t F -> Z.to_nat (fst t) <> j) -> nth j l' 0 = nth j l 0.
Proof.
  induction F as [|[e c] F IH]; intros N l Rl H; cbv zeta; cbn [numb map fold_left fst snd].
  - split; [exact Rl|]. split; [reflexivity|]. split; [change (graw usm (@nil (Z * zpc p))) with (@r0 (zpc p)); ring|auto].
  - change (map (fun t => (fst t, proj1_sig (snd t))) F) with (numb F). destruct N as (N1 & N2 & N3). inversion N1 as [|? ? O1 N1']; subst. inversion N3 as [|? ? Z1 N3']; subst. inversion N2 as [|? ? N2' G1]; subst. cbn [fst snd] in *.
    destruct (H (e, c) ltac:(left; reflexivity)) as [Hl Hn]. cbn [fst] in Hl, Hn.
    assert (Gt : forall t, In t F -> fst t < e).
    { intros t Ht. rewrite Forall_forall in G1. specialize (G1 (fst t) (in_map fst _ _ Ht)). cbn [uniS m_gt] in G1. apply Z.gtb_lt in G1. exact G1. }
    destruct (IH ltac:(split; [exact N1'|split; [exact N2'|exact N3']]) (set_nth (Z.to_nat e) l (proj1_sig c))) as (R' & L' & E' & K').
    + apply set_nth_res; [exact Rl|apply zpc_res].
    + intros t Ht. destruct (H t ltac:(right; exact Ht)) as [Hl' Hn']. rewrite set_nth_length. split; [exact Hl'|]. rewrite set_nth_nth.
      pose proof (Gt t Ht). rewrite Forall_forall in N1'. pose proof (N1' t Ht) as Ot. unfold uok in *. destruct (Nat.eqb_spec (Z.to_nat e) (Z.to_nat (fst t))); [lia|]. exact Hn'.
    + split; [exact R'|]. split; [rewrite L'; apply set_nth_length|]. split.
      * rewrite E', set_nth_D by assumption. rewrite <- uterm by exact O1. cbn [graw map fst snd]. 
        change ((usm e, c) :: map (fun t => (usm (fst t), snd t)) F) with ([(usm e, c)] [+] graw usm F). ring.
      * intros j Hj. rewrite K' by (intros t Ht; apply Hj; right; exact Ht). rewrite set_nth_nth. destruct (Nat.eqb_spec (Z.to_nat e) j) as [Ej|]; [exfalso; apply (Hj (e, c)); [left; reflexivity|exact Ej]|reflexivity].
Qed.
Theorem of_up_ok F : upo F -> res (of_up F) /\ stripped (of_up F) /\ D (of_up F) == graw usm F /\
  length (of_up F) = match F with [] => 0%nat | t :: _ => (Z.to_nat (fst t) + 1)%nat end.
Proof.
  intros N. unfold of_up. change (map (fun t => (fst t, proj1_sig (snd t))) F) with (numb F). unfold of_sparse.
  destruct F as [|[e c] F]; [split; [constructor|]; split; [reflexivity|]; split; [reflexivity|reflexivity]|].
  cbn [numb map fst snd]. change ((e, proj1_sig c) :: map (fun t => (fst t, proj1_sig (snd t))) F) with (numb ((e, c) :: F)).
  pose proof N as (N1 & N2 & N3). inversion N1 as [|? ? O1 N1']; subst. inversion N3 as [|? ? Z1 N3']; subst. inversion N2 as [|? ? N2' G1]; subst. cbn [fst snd] in *.
  assert (Gt : forall t, In t F -> 0 <= fst t < e).
  { intros t Ht. rewrite Forall_forall in G1, N1'. specialize (G1 (fst t) (in_map fst _ _ Ht)). specialize (N1' t Ht). cbn [uniS m_gt] in G1. apply Z.gtb_lt in G1. unfold uok in N1'. lia. }
  destruct (fold_set ((e, c) :: F) N (repeat 0 (Z.to_nat e + 1)) (res_repeat p Hp _)) as (R & L & E & _).
  { intros t Ht. rewrite repeat_length. split; [|apply nth_repeat]. unfold uok in O1. destruct Ht as [<-|Ht]; [cbn [fst]; lia|]. specialize (Gt t Ht). lia. }
  cbv zeta in R, L, E. rewrite repeat_length in L. split; [exact R|]. split; [|split; [rewrite E, (D_repeat p Hp); ring|exact L]].
  apply stripped_of. intros _. rewrite L. replace (Z.to_nat e + 1 - 1)%nat with (Z.to_nat e) by lia. cbn [numb map fold_left fst snd].
  assert (Rs : res (set_nth (Z.to_nat e) (repeat 0 (Z.to_nat e + 1)) (proj1_sig c))) by (apply set_nth_res; [apply res_repeat, Hp|apply zpc_res]).
  destruct (fold_set F ltac:(split; [exact N1'|split; [exact N2'|exact N3']]) _ Rs) as (_ & _ & _ & Kp).
  { intros t Ht. rewrite set_nth_length, repeat_length, set_nth_nth, nth_repeat. specialize (Gt t Ht). destruct (Nat.eqb_spec (Z.to_nat e) (Z.to_nat (fst t))); [lia|]. split; [lia|reflexivity]. }
  cbv zeta in Kp. unfold numb in Kp. rewrite Kp by (intros t Ht; specialize (Gt t Ht); lia). rewrite set_nth_nth, Nat.eqb_refl, repeat_length.
  destruct (Nat.ltb_spec (Z.to_nat e) (Z.to_nat e + 1)); [|lia]. cbn [andb]. intros C. apply Z1. apply zpc_eq. rewrite C. cbn [c0 Zpc]. rewrite v_of. symmetry. apply Z.mod_0_l, (p_nz p Hp).
Qed.

(** ** dense to sparse *)
Definition sp_at (s : nat) (l : dpoly) : list (Z * Z) := filter (fun t => negb (snd t =? 0)) (rev (combine (map Z.of_nat (seq s (length l))) l)).
Lemma sp_at_cons s a l : sp_at s (a :: l) = sp_at (S s) l ++ (if a =? 0 then [] else [(Z.of_nat s, a)]).
Proof.
  unfold sp_at. cbn [length seq map combine rev]. rewrite filter_app. f_equal. cbn [filter snd]. destruct (a =? 0); reflexivity.
Qed.
Definition lift (t : Z * Z) : Z * zpc p := (fst t, zpc_of p Hp (snd t)).
Lemma sp_at_ok l : res l -> forall s, upo (map lift (sp_at s l)) /\ (forall t, In t (sp_at s l) -> Z.of_nat s <= fst t < Z.of_nat (s + length l)) /\ graw usm (map lift (sp_at s l)) == Xp s [*] D l.
Proof.
  induction 1 as [|a l Ha Rl IH]; intros s.
  - split; [split; [constructor|split; constructor]|]. split; [intros t []|]. change (graw usm (map lift (sp_at s []))) with (@r0 (zpc p)). cbn [dval]. ring.
  - rewrite sp_at_cons. destruct (IH (S s)) as (N & B & E). rewrite map_app. unfold graw in *. rewrite map_app. 
    destruct (Z.eqb_spec a 0) as [->|Na]; cbn [map app].
    + rewrite !app_nil_r. split; [exact N|]. split; [intros t Ht; specialize (B t Ht); cbn [length]; lia|]. rewrite E. rewrite D_cons, cst_0. cbn [rpow]. ring.
    + split; [|split].
      * destruct N as (N1 & N2 & N3). split; [apply Forall_app; split; [exact N1|constructor; [unfold lift, uok; cbn [fst]; lia|constructor]]|].
        split; [|apply Forall_app; split; [exact N3|constructor; [|constructor]]].
        -- clear -N2 B. assert (G : Forall (fun e => m_gt uniS e (Z.of_nat s) = true) (map fst (map lift (sp_at (S s) l)))).
           { apply Forall_forall. intros e He. apply in_map_iff in He as (t & <- & Ht). apply in_map_iff in Ht as (u & <- & Hu). specialize (B u Hu). unfold lift. cbn [fst uniS m_gt]. apply Z.gtb_lt. lia. }
           unfold desc in *. rewrite map_app. cbn [map lift fst]. induction N2 as [|t r N2 IHn H]; cbn [app]; [constructor; constructor|]. inversion G as [|? ? G1 G2]; subst. constructor; [apply IHn, G2|].
           apply Forall_app. split; [exact H|]. constructor; [exact G1|constructor].
        -- unfold lift. cbn [snd]. intros C. apply Na. apply (f_equal (@proj1_sig _ _)) in C. cbn [c0 Zpc] in C. rewrite !v_of, Z.mod_0_l in C by apply (p_nz p Hp). unfold residue in Ha. rewrite Z.mod_small in C by exact Ha. exact C.
      * intros t Ht. apply in_app_or in Ht. cbn [length]. destruct Ht as [Ht|[<-|[]]]; [specialize (B t Ht); lia|cbn [fst]; lia].
      * change (map (fun t => (usm (fst t), snd t)) (map lift (sp_at (S s) l)) ++ [(usm (fst (lift (Z.of_nat s, a))), snd (lift (Z.of_nat s, a)))])
          with (map (fun t => (usm (fst t), snd t)) (map lift (sp_at (S s) l)) [+] [(usm (Z.of_nat s), zpc_of p Hp a)]).
        rewrite E, uterm by lia. rewrite v_of, cst_mod, Nat2Z.id, D_cons. cbn [rpow]. ring.
Qed.
Lemma to_up_sp l : to_up p Hp l = map lift (sp_at 0 l). Proof. reflexivity. Qed.
Theorem to_up_ok l : res l -> upo (to_up p Hp l) /\ graw usm (to_up p Hp l) == D l.
Proof. intros R. rewrite to_up_sp. destruct (sp_at_ok l R 0%nat) as (N & _ & E). split; [exact N|]. rewrite E. cbn [rpow]. ring. Qed.
Lemma sp_at_last s l x : sp_at s (l ++ [x]) = (if x =? 0 then [] else [(Z.of_nat (s + length l), x)]) ++ sp_at s l.
Proof.
  revert s. induction l as [|a l IH]; intros s.
  - cbn [app]. rewrite sp_at_cons. cbn [length]. rewrite Nat.add_0_r, app_nil_r. reflexivity.
  - cbn [app length]. rewrite !sp_at_cons, IH, <- app_assoc. replace (S s + length l)%nat with (s + S (length l))%nat by lia. reflexivity.
Qed.
(** the leading term of the sparse form *)
Lemma to_up_head l : stripped l -> l <> [] -> exists r, to_up p Hp l = (Z.of_nat (length l - 1), zpc_of p Hp (nth (length l - 1) l 0)) :: r.
Proof.
  intros T N. rewrite to_up_sp. pose proof (stripped_top l T N) as Tn. destruct (exists_last N) as (l' & x & E). subst l. rewrite sp_at_last. rewrite app_length in *. cbn [length] in *.
  replace (length l' + 1 - 1)%nat with (length l') in * by lia. rewrite app_nth2 in * by lia. rewrite Nat.sub_diag in *. cbn [nth] in *. destruct (Z.eqb_spec x 0); [contradiction|].
  cbn [app map Nat.add]. eexists. reflexivity.
Qed.
End DS.
