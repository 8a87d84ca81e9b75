(** * BezoutMatrix and det of the model (Resultant.v) compute the determinant of the Bezout matrix. *)
From Coq Require Import Ring_theory Ring Setoid Morphisms Lia.
From Verif Require Import Prelude Coef Spec SpecProofs SpecOps SpecOpsProofs OrderSpec PairVec PairVecProofs Mono MonoProofs
  MonoStruct MonoStructProofs Heap HeapMulProofs Poly PolyMulProofs Div PolyDivProofs PolyOps MonoOpsProofs PolyOpsGen PolyOpsProofs PolyOps2Proofs
  Prem PremProofs GcdDom GcdPoly GcdMath GcdHom GcdRep GcdLex ResSpec ResDet ResMath ResChain ResSyl ResBez Resultant ResProofs.
Local Open Scope Z_scope.

Section RBP.
Context {C : Type} (K : coefs C) (HD : domain_ok K) (HG : cgcd_ok K) (v : var).
Context (compress : poly C -> poly C -> outcome (option (poly C))).
Let HK : ring_ok K := domain_ring K HD.
Local Existing Instance HK.
Add Ring Kring : (ring_laws K HK).
Add Ring Rring : (rring K HK) (setoid (req_equiv K) (rring_ext K HK)).
Notation vo := (vuniv v).
Let Hvo : vorder_ok vo := vuniv_ok v.
Notation S := (lexS vo).
Let HS : monos_ok S (mok vo) sm := lexS_ok vo Hvo.
Notation norm := (normal (mok vo) (lex_gt vo) K).
Notation graw := (graw sm).
Notation poly := (poly C).
Notation R := (rpoly C).
Notation rmul := (rmul K). Notation rpow := (rpow K).
Local Infix "==" := (req K) (at level 70).
Notation r0 := (@Spec.r0 C). Notation r1 := (Spec.r1 K).
Notation cf := (cf K v). Notation dl := (dl K v). Notation m1 := (ropp K r1). Notation X := (X K v).
Notation free := (vfree K v).
Notation dg := (dg v).
Context (HC : comp_all S (mok vo) sm K compress).
Local Existing Instance rpow_proper.
Local Existing Instance cf_proper.
Local Existing Instance dl_proper.

(** ** determinants *)
Lemma expand_rel {A B} (Rel : A -> B -> Prop) (a : A -> R) (b : B -> R) l l' : Forall2 Rel l l' -> (forall x y, Rel x y -> a x == b y) ->
  forall (f : list A -> R) (g : list B -> R), (forall x y, Forall2 Rel x y -> f x == g y) -> expand K a f l == expand K b g l'.
Proof.
  intros H Hab. induction H as [|x y l l' Hx H IH]; intros f g Hfg; cbn [expand]; [reflexivity|]. unfold rsub.
  rewrite (Hab x y Hx), (Hfg l l' H), (IH (fun l => f (x :: l)) (fun l => g (y :: l))); [reflexivity|]. intros s t Hst. apply Hfg. constructor; assumption.
Qed.
Lemma det_rel {A B} (Rel : A -> B -> Prop) (cs : list (A -> R)) (cs' : list (B -> R)) : Forall2 (fun c c' => forall x y, Rel x y -> c x == c' y) cs cs' ->
  forall l l', Forall2 Rel l l' -> det_by K cs l == det_by K cs' l'.
Proof.
  induction 1 as [|c c' cs cs' H _ IH]; intros l l' Hl; cbn [det_by]; [destruct Hl; reflexivity|]. apply (expand_rel Rel); assumption.
Qed.
Definition E (k : nat) (row : list poly) : R := graw (nth k row []).
Definition fine_row (n : nat) (row : list poly) : Prop := length row = n /\ Forall norm row.
Lemma det_tl n a (l : list (list poly)) : det_by K (map E (seq a n)) (map (@tl poly) l) = det_by K (map E (seq (Datatypes.S a) n)) l.
Proof.
  apply det_map. revert a. induction n as [|n IH]; intros a; cbn [seq map]; constructor; [|apply IH].
  intros [|x r]; unfold E; cbn [tl]; [destruct a; reflexivity|reflexivity].
Qed.
Definition det_go (rec : list (list poly) -> outcome poly) :=
  fix go (pre rest : list (list poly)) (even : bool) (sum : poly) : outcome poly :=
    match rest with
    | [] => Ok sum
    | row :: rest' =>
        match row with
        | [] => UB
        | a :: _ =>
            match a with
            | [] => go (pre ++ [row]) rest' (negb even) sum
            | _ => (D <- rec (map (@tl poly) (pre ++ rest')) ;;
                    P <- p_mul S K compress a D ;;
                    go (pre ++ [row]) rest' (negb even) (if even then p_add S K sum P else p_sub S K sum P))
            end
        end
    end.
Lemma p_det_S n A : p_det K v compress (Datatypes.S (Datatypes.S n)) A = det_go (p_det K v compress (Datatypes.S n)) [] A true [].
Proof. reflexivity. Qed.
Definition sgn (b : bool) (p : R) : R := if b then p else ropp K p.
Lemma det_go_ok n (rec : list (list poly) -> outcome poly) (phi : list (list poly) -> R) :
  (forall l, length l = n -> Forall (fine_row (Datatypes.S n)) l -> exists D, rec (map (@tl poly) l) = Ok D /\ norm D /\ graw D == phi l) ->
  forall rest pre even sum, length (pre ++ rest) = Datatypes.S n -> Forall (fine_row (Datatypes.S n)) (pre ++ rest) -> norm sum ->
  exists D, det_go rec pre rest even sum = Ok D /\ norm D /\ graw D == radd (graw sum) (sgn even (expand K (E 0) (fun l => phi (pre ++ l)) rest)).
Proof.
  intros Hrec. induction rest as [|row rest IH]; intros pre even sum L H Ns; cbn [det_go expand].
  - exists sum. split; [reflexivity|]. split; [exact Ns|]. destruct even; cbn [sgn]; ring.
  - assert (L' : length ((pre ++ [row]) ++ rest) = Datatypes.S n) by (rewrite <- app_assoc; exact L).
    assert (H' : Forall (fine_row (Datatypes.S n)) ((pre ++ [row]) ++ rest)) by (rewrite <- app_assoc; exact H).
    assert (Hr : fine_row (Datatypes.S n) row) by (apply Forall_app in H as [_ H]; inversion H; assumption).
    destruct row as [|a row]; [destruct Hr; discriminate|]. destruct Hr as [_ Hr]. inversion Hr as [|? ? Na _]; subst.
    assert (Ex : expand K (E 0) (fun l => phi (pre ++ (a :: row) :: l)) rest = expand K (E 0) (fun l => phi ((pre ++ [a :: row]) ++ l)) rest).
    { apply (expand_ext_eq K); [reflexivity|]. intros x. rewrite <- app_assoc. reflexivity. }
    unfold rsub. unfold E at 2. cbn [nth].
    assert (Step : forall sum', norm sum' -> graw sum' == radd (graw sum) (sgn even (rmul (graw a) (phi (pre ++ rest)))) ->
      exists D, det_go rec (pre ++ [a :: row]) rest (negb even) sum' = Ok D /\ norm D /\
        graw D == radd (graw sum) (sgn even (radd (rmul (graw a) (phi (pre ++ rest))) (ropp K (expand K (E 0) (fun l => phi (pre ++ (a :: row) :: l)) rest))))).
    { intros sum' Ns' Es. destruct (IH (pre ++ [a :: row]) (negb even) sum' L' H' Ns') as (D & ED & ND & RD). exists D. split; [exact ED|]. split; [exact ND|].
      rewrite RD, Es. rewrite Ex. destruct even; cbn [sgn negb]; ring. }
    destruct a as [|t a'] eqn:Ea.
    + apply Step; [exact Ns|]. change (graw (@nil (mono * C))) with (@Spec.r0 C). destruct even; cbn [sgn]; ring.
    + rewrite <- Ea in *. clear t a' Ea.
      destruct (Hrec (pre ++ rest)) as (D & ED & ND & RD).
      { rewrite app_length in L |- *. cbn [length] in L. lia. }
      { apply Forall_app in H as [H1 H2]. inversion H2. apply Forall_app. split; assumption. }
      destruct (mul_ok K HD v compress HC a D Na ND) as (P & EP & NP & RP). rewrite ED. cbn [obind]. rewrite EP. cbn [obind].
      apply Step.
      * destruct even; [apply (p_add_normal S (mok vo) sm K HS HK)|apply (p_sub_normal S (mok vo) sm K HS HK)]; assumption.
      * destruct even; cbn [sgn].
        -- rewrite (p_add_req S (mok vo) sm K HS HK sum P), RP, RD. reflexivity.
        -- rewrite (p_sub_req S (mok vo) sm K HS HK sum P), RP, RD. unfold rsub. reflexivity.
Qed.
Theorem p_det_ok n : forall A, length A = Datatypes.S n -> Forall (fine_row (Datatypes.S n)) A ->
  exists D, p_det K v compress (Datatypes.S n) A = Ok D /\ norm D /\ graw D == det_by K (map E (seq 0 (Datatypes.S n))) A.
Proof.
  induction n as [|n IH]; intros A L H.
  - destruct A as [|row [|? ?]]; try discriminate. inversion H as [|? ? [Lr Hr] _]; subst. destruct row as [|a row]; [discriminate|]. inversion Hr; subst.
    exists a. split; [reflexivity|]. split; [assumption|]. cbn [seq map det_by expand]. unfold rsub, E. cbn [nth]. ring.
  - rewrite p_det_S. destruct (det_go_ok (Datatypes.S n) (p_det K v compress (Datatypes.S n)) (det_by K (map E (seq 1 (Datatypes.S n)))) ) with (rest := A) (pre := @nil (list poly)) (even := true) (sum := @nil (mono * C)) as (D & ED & ND & RD).
    + intros l Ll Hl. destruct (IH (map (@tl poly) l)) as (D & ED & ND & RD).
      * rewrite map_length. exact Ll.
      * rewrite Forall_map. eapply Forall_impl; [|exact Hl]. intros [|x r] [L1 N1]; [discriminate|]. cbn [tl]. split; [cbn [length] in L1; lia|inversion N1; assumption].
      * exists D. split; [exact ED|]. split; [exact ND|]. rewrite RD. rewrite det_tl. reflexivity.
    + exact L.
    + exact H.
    + apply (norm_nil S (mok vo) K).
    + exists D. split; [exact ED|]. split; [exact ND|]. rewrite RD. change (graw (@nil (mono * C))) with (@Spec.r0 C). cbn [sgn app].
      transitivity (expand K (E 0) (fun l => det_by K (map E (seq 1 (Datatypes.S n))) l) A); [ring|]. reflexivity.
Qed.

(** ** the rows *)
Lemma cf_X_low s k (p : R) : (k < s)%nat -> cf k (rmul (X s) p) == r0.
Proof.
  intros L m. unfold ResMath.cf. rewrite (coef_rcoeff K HK). destruct (N.eqb_spec (exp m v) 0) as [E0|E0]; [|reflexivity].
  rewrite (coef_X K HD). cbn [exp]. rewrite N.eqb_refl, exp_mdrop, N.eqb_refl. destruct (N.leb_spec (N.of_nat s) (N.of_nat k + 0)) as [L'|L']; [lia|reflexivity].
Qed.
Definition coefs_of (co : list poly) (P : R) (n : nat) : Prop := length co = (n + 1)%nat /\ forall k, (k <= n)%nat -> norm (nth k co []) /\ graw (nth k co []) == cf k P.
Lemma coeff_ok (p : poly) : norm p -> exists co, coeff_up v p = Ok co /\ coefs_of co (graw p) (dg p).
Proof.
  intros N. destruct (coeff_up_spec vo Hvo K HK v p N (top v p)) as (co & Eco & L & H). exists co. split; [exact Eco|].
  destruct (ResProofs.up_deg_spec K HD v p N) as (U & P0 & _). rewrite <- U in L.
  assert (L' : length co = (dg p + 1)%nat) by (rewrite L; unfold ResProofs.dg; lia). split; [exact L'|]. intros k Hk. rewrite (H k) by (rewrite L'; lia).
  destruct (cls_spec vo Hvo S (or_introl eq_refl) K HK v (Z.of_nat k) p N ltac:(lia)) as [N1 R1]. split; [exact N1|].
  assert (R1' : graw (cls vo v (Z.of_nat k) p) == rcoeff K v (Z.to_N (Z.of_nat k)) (graw p)) by exact R1. rewrite R1'. unfold ResMath.cf.
  replace (Z.to_N (Z.of_nat k)) with (N.of_nat k) by lia. reflexivity.
Qed.
Lemma one_nz : c1 K <> c0 K. Proof. apply (domain_nontrivial K HD). Qed.
Lemma shift_ok e (c : poly) : norm c -> free (graw c) -> norm (up_shift v (Z.of_nat e) c) /\ graw (up_shift v (Z.of_nat e) c) == rmul (X e) (graw c).
Proof.
  intros N Fr. destruct (umono_spec vo v (Z.of_nat e) ltac:(lia)) as [OU XU].
  assert (Eq : up_shift v (Z.of_nat e) c = map (fun u => (m_mul S (umono v (Z.of_nat e)) (fst u), cmul K (c1 K) (snd u))) c).
  { unfold up_shift. apply map_ext_in. intros u Hu. destruct (PremProofs.in_supp vo Hvo K HK c u N Hu) as (Ou & Cu & Xu).
    assert (Z0 : zexp (fst u) v = 0) by (rewrite <- (Xu v), (Fr _ Cu); reflexivity).
    f_equal; [|ring]. rewrite (change_up_is v (fst u) (Z.of_nat e) Ou ltac:(lia)). destruct (change_var_deg_spec vo Hvo (fst u) v (Z.of_nat e) Ou ltac:(lia)) as [O1 X1].
    cbn [m_mul lexS]. apply (mok_ext vo Hvo); [exact O1|apply mok_mul; assumption|]. intros w. rewrite (zexp_mul vo), (X1 w), (XU w).
    destruct (N.eqb_spec w v) as [->|]; lia. }
  rewrite Eq. split.
  - apply (norm_scale_mono S (mok vo) sm K HS HD (umono v (Z.of_nat e), c1 K) c OU one_nz N).
  - pose proof (products_req S (mok vo) sm K HS HK [(umono v (Z.of_nat e), c1 K)] c) as P. unfold HeapMulProofs.products in P. cbn [flat_map fst snd] in P. rewrite app_nil_r in P.
    rewrite P; [|constructor; [exact OU|constructor]|apply (proj1 N)]. unfold ResMath.X. apply (rmul_proper K HK); [|reflexivity].
    cbn [MonoStruct.graw map fst snd]. apply (req_single K); [|reflexivity]. pose proof (sm_umono vo v (Z.of_nat e) ltac:(lia)) as M. replace (Z.to_N (Z.of_nat e)) with (N.of_nat e) in M by lia. exact M.
Qed.
Lemma bez_sum_ok co P n a e c : coefs_of co P n -> forall lo acc, (lo + c <= Datatypes.S a)%nat -> (a <= n + lo)%nat -> (lo + c <= Datatypes.S e)%nat -> norm acc ->
  exists r, bez_sum K v co (Z.of_nat a) (Z.of_nat e) c (Z.of_nat lo) acc = Ok r /\ norm r /\ graw r == radd (graw acc) (bsum K v P a e lo c).
Proof.
  intros [Lc Hc]. induction c as [|c IH]; intros lo acc H1 H2 H3 Na; cbn [bez_sum bsum].
  - exists acc. split; [reflexivity|]. split; [exact Na|]. change (@Spec.r0 C) with (@Spec.r0 C). ring.
  - destruct (Hc (a - lo)%nat ltac:(lia)) as [Nk Rk].
    assert (Enth : nth_co co (Z.of_nat a - Z.of_nat lo) = Ok (nth (a - lo) co [])).
    { unfold nth_co. replace (Z.to_nat (Z.of_nat a - Z.of_nat lo)) with (a - lo)%nat by lia. rewrite (nth_error_nth' co [] (n := (a - lo)%nat)) by lia.
      destruct (Z.ltb_spec (Z.of_nat a - Z.of_nat lo) 0); [lia|reflexivity]. }
    rewrite Enth. cbn [obind]. replace (Z.of_nat e - Z.of_nat lo) with (Z.of_nat (e - lo)) by lia.
    assert (Fk : free (graw (nth (a - lo) co []))).
    { pose proof (cf_free K HD v (a - lo) P) as Fk. intros m Hm. apply Fk. rewrite <- (Rk m). exact Hm. }
    destruct (shift_ok (e - lo) _ Nk Fk) as [N1 R1].
    replace (Z.of_nat lo + 1) with (Z.of_nat (lo + 1)) by lia.
    destruct (IH (lo + 1)%nat (p_add S K acc (up_shift v (Z.of_nat (e - lo)) (nth (a - lo) co [])))) as (r & Er & Nr & Rr); [lia|lia|lia|apply (p_add_normal S (mok vo) sm K HS HK); assumption|].
    exists r. split; [exact Er|]. split; [exact Nr|]. rewrite Rr. rewrite (p_add_req S (mok vo) sm K HS HK), R1, Rk. ring.
Qed.

Context (F G : poly) (NF : norm F) (NG : norm G).
Notation n := (dg F). Notation m := (dg G).
Context (Hm : (1 <= m)%nat) (Hnm : (m <= n)%nat) (Gne : G <> []).
Definition Rel (row : list poly) (p : R) : Prop := forall k, (k < n)%nat -> graw (nth k row []) == cf (n - 1 - k) p.
Lemma nil0 : norm []. Proof. apply (norm_nil S (mok vo) K). Qed.
Lemma row_ok coF coG i : coefs_of coF (graw F) n -> coefs_of coG (graw G) m -> (1 <= i <= m)%nat ->
  exists row, bez_row K v compress coF coG (Z.of_nat n) (Z.of_nat m) (Z.of_nat i) = Ok row /\ fine_row n row /\ Rel row (bez_poly K v (graw F) (graw G) n m i).
Proof.
  intros cF cG Hi. unfold bez_row.
  replace (Z.to_nat (Z.of_nat m + 1 - Z.of_nat i)) with (m + 1 - i)%nat by lia. replace (Z.to_nat (Z.of_nat n + 1 - Z.of_nat i)) with (n + 1 - i)%nat by lia. rewrite Nat2Z.id.
  destruct (bez_sum_ok coG (graw G) m m n (m + 1 - i) cG i [] ltac:(lia) ltac:(lia) ltac:(lia) nil0) as (f1 & E1 & N1 & R1). rewrite E1. cbn [obind].
  destruct (bez_sum_ok coF (graw F) n n n (n + 1 - i) cF i [] ltac:(lia) ltac:(lia) ltac:(lia) nil0) as (f3 & E3 & N3 & R3). rewrite E3. cbn [obind].
  destruct (bez_sum_ok coF (graw F) n (n + 1) i i cF 1 [] ltac:(lia) ltac:(lia) ltac:(lia) nil0) as (f2 & E2 & N2 & R2).
  replace (Z.of_nat (n + 1)) with (Z.of_nat n + 1) in E2 by lia. change (Z.of_nat 1) with 1 in E2. rewrite E2. cbn [obind].
  destruct (bez_sum_ok coG (graw G) m (m + 1) i i cG 1 [] ltac:(lia) ltac:(lia) ltac:(lia) nil0) as (f4 & E4 & N4 & R4).
  replace (Z.of_nat (m + 1)) with (Z.of_nat m + 1) in E4 by lia. change (Z.of_nat 1) with 1 in E4. rewrite E4. cbn [obind].
  destruct (mul_ok K HD v compress HC f1 f2 N1 N2) as (a & Ea & Na & Ra). destruct (mul_ok K HD v compress HC f3 f4 N3 N4) as (b & Eb & Nb & Rb).
  rewrite Ea. cbn [obind]. rewrite Eb. cbn [obind].
  pose proof (p_sub_normal S (mok vo) sm K HS HK a b Na Nb) as Ns. pose proof (p_sub_req S (mok vo) sm K HS HK a b) as Rs.
  set (s := p_sub S K a b) in *. destruct (coeff_ok s Ns) as (cot & Ec & Lc & Hc). rewrite Ec. cbn [obind]. rewrite Nat2Z.id.
  assert (Rp : graw s == bez_poly K v (graw F) (graw G) n m i).
  { assert (Z1 : forall p, radd (graw (@nil (mono * C))) p == p) by (intros p; change (graw (@nil (mono * C))) with (@Spec.r0 C); ring).
    rewrite Z1 in R1, R2, R3, R4. rewrite Rs, Ra, Rb, R1, R2, R3, R4. reflexivity. }
  assert (Hk : forall k, norm (nth k cot []) /\ graw (nth k cot []) == cf k (graw s)).
  { intros k. destruct (Nat.le_gt_cases k (dg s)) as [L|L]; [apply Hc, L|]. rewrite nth_overflow by lia. split; [apply nil0|].
    symmetry. apply (cf_dl K HD v (Datatypes.S (dg s))); [apply (dg_dl K HD v s Ns)|lia]. }
  eexists. split; [reflexivity|]. split.
  - split; [rewrite map_length, rev_length, seq_length; reflexivity|]. rewrite Forall_map, Forall_forall. intros k _. apply Hk.
  - intros k Lk. rewrite (nth_indep _ [] (nth 0 cot [])) by (rewrite map_length, rev_length, seq_length; lia).
    rewrite (map_nth (fun k => nth k cot [])). rewrite rev_nth by (rewrite seq_length; lia). rewrite seq_length, seq_nth by lia.
    replace (0 + (n - Datatypes.S k))%nat with (n - 1 - k)%nat by lia. rewrite (proj2 (Hk _)), Rp. reflexivity.
Qed.
Lemma zseq_rev_rows coF coG i : coefs_of coF (graw F) n -> coefs_of coG (graw G) m -> (i <= m)%nat ->
  exists rows, omapl (bez_row K v compress coF coG (Z.of_nat n) (Z.of_nat m)) (rev (zseq 1 i)) = Ok rows /\ Forall (fine_row n) rows /\ Forall2 Rel rows (bez_rows K v (graw F) (graw G) n m i).
Proof.
  intros cF cG. induction i as [|i IH]; intros Hi; [exists []; repeat split; constructor|].
  destruct IH as (rows & Er & Fr & Rr); [lia|]. destruct (row_ok coF coG (Datatypes.S i) cF cG ltac:(lia)) as (row & E1 & F1 & R1).
  exists (row :: rows). split; [|split; [constructor; assumption|cbn [bez_rows]; constructor; assumption]].
  unfold zseq. rewrite seq_S, map_app, rev_app_distr. cbn [map rev app omapl]. replace (1 + Z.of_nat (0 + i)) with (Z.of_nat (Datatypes.S i)) by lia.
  rewrite E1. cbn [obind]. unfold zseq in Er. rewrite Er. reflexivity.
Qed.
Lemma rev_coefs coG k : coefs_of coG (graw G) m -> (k <= m)%nat -> graw (nth k (rev coG) []) == cf (m - k) (graw G).
Proof. intros [L H] Hk. rewrite rev_nth by lia. replace (length coG - Datatypes.S k)%nat with (m - k)%nat by lia. apply H. lia. Qed.
Lemma shift_row_ok coG i : coefs_of coG (graw G) m -> (m < i <= n)%nat ->
  fine_row n (bez_shift_row coG (Z.of_nat n) (Z.of_nat m) (Z.of_nat i)) /\ Rel (bez_shift_row coG (Z.of_nat n) (Z.of_nat m) (Z.of_nat i)) (rmul (X (n - i)) (graw G)).
Proof.
  intros cG Hi. pose proof cG as [Lc Hc]. unfold bez_shift_row. replace (Z.to_nat (Z.of_nat i - Z.of_nat m - 1)) with (i - m - 1)%nat by lia. replace (Z.to_nat (Z.of_nat n - Z.of_nat i)) with (n - i)%nat by lia.
  assert (Lr : length (rev coG) = (m + 1)%nat) by (rewrite rev_length; exact Lc).
  split.
  - split; [rewrite !app_length, !repeat_length, Lr; lia|]. apply Forall_app. split; [apply Forall_forall; intros x Hx; apply repeat_spec in Hx; subst; apply nil0|].
    apply Forall_app. split; [|apply Forall_forall; intros x Hx; apply repeat_spec in Hx; subst; apply nil0].
    apply Forall_forall. intros x Hx. apply in_rev in Hx. apply (In_nth _ _ []) in Hx as (k & Lk & <-). assert (Lk' : (k < m + 1)%nat) by (rewrite <- Lc; exact Lk). apply Hc. lia.
  - intros k Lk. pose proof (dg_dl K HD v G NG) as DG. destruct (Nat.lt_ge_cases k (i - m - 1)) as [L1|L1].
    + rewrite app_nth1 by (rewrite repeat_length; exact L1). rewrite nth_repeat. symmetry. apply (cf_dl K HD v (n - i + Datatypes.S m)); [apply (dl_X K HD), DG|lia].
    + rewrite app_nth2, repeat_length by (rewrite repeat_length; exact L1). destruct (Nat.lt_ge_cases (k - (i - m - 1)) (m + 1)) as [L2|L2].
      * rewrite app_nth1 by (rewrite Lr; exact L2). rewrite (rev_coefs coG _ cG) by lia. rewrite <- (cf_X K HD v (n - i) (m - (k - (i - m - 1))) (graw G)).
        replace (n - i + (m - (k - (i - m - 1))))%nat with (n - 1 - k)%nat by lia. reflexivity.
      * rewrite app_nth2, Lr by (rewrite Lr; exact L2). rewrite nth_repeat. symmetry.
        change (graw (@nil (mono * C))) with (@Spec.r0 C). apply cf_X_low. lia.
Qed.
Lemma shift_rows_ok coG k : coefs_of coG (graw G) m -> (k <= n - m)%nat ->
  Forall (fine_row n) (map (bez_shift_row coG (Z.of_nat n) (Z.of_nat m)) (map (fun j => Z.of_nat m + 1 + Z.of_nat j) (seq (n - m - k) k))) /\
  Forall2 Rel (map (bez_shift_row coG (Z.of_nat n) (Z.of_nat m)) (map (fun j => Z.of_nat m + 1 + Z.of_nat j) (seq (n - m - k) k))) (shifts K v k (graw G)).
Proof.
  intros cG. induction k as [|k IH]; intros Hk; cbn [seq map ResSpec.shifts]; [split; constructor|].
  replace (Datatypes.S (n - m - Datatypes.S k)) with (n - m - k)%nat by lia. destruct IH as [I1 I2]; [lia|].
  destruct (shift_row_ok coG (n - k) cG ltac:(lia)) as [A B]. replace (n - (n - k))%nat with k in B by lia.
  replace (Z.of_nat m + 1 + Z.of_nat (n - m - Datatypes.S k)) with (Z.of_nat (n - k)) by lia. split; constructor; assumption.
Qed.
Lemma rel_cols : Forall2 (fun (c : list poly -> R) (c' : R -> R) => forall x y, Rel x y -> c x == c' y) (map E (seq 0 n)) (map cf (rev (seq 0 n))).
Proof.
  assert (H : forall a k, (a + k = n)%nat -> Forall2 (fun (c : list poly -> R) (c' : R -> R) => forall x y, Rel x y -> c x == c' y) (map E (seq a k)) (map cf (rev (seq 0 k)))).
  { intros a k. revert a. induction k as [|k IH]; intros a Ha; [constructor|]. rewrite (seq_S k 0), rev_app_distr. cbn [seq map rev app]. constructor; [|apply IH; lia].
    intros x y Hxy. unfold E. rewrite (Hxy a ltac:(lia)). replace (n - 1 - a)%nat with (0 + k)%nat by lia. reflexivity. }
  apply (H 0%nat n). reflexivity.
Qed.
Theorem bezout_ok : exists D, (B <- bezout_matrix K v compress F G ;; p_det K v compress (Z.to_nat (Z.of_nat n)) B) = Ok D /\ norm D /\
  graw D == subres K v n m (graw F) (graw G) 0.
Proof.
  unfold bezout_matrix. rewrite (up_eq K HD v F NF), (up_eq K HD v G NG). destruct (Z.ltb_spec (Z.of_nat n) (Z.of_nat m)); [lia|].
  destruct (coeff_ok F NF) as (coF & EF & cF). destruct (coeff_ok G NG) as (coG & EG & cG). rewrite EF. cbn [obind]. rewrite EG. cbn [obind]. rewrite !Nat2Z.id.
  destruct (zseq_rev_rows coF coG m cF cG (le_n _)) as (rows & Er & Fr & Rr). rewrite Er. cbn [obind].
  destruct (shift_rows_ok coG (n - m) cG (le_n _)) as [F2 R2]. replace (Z.to_nat (Z.of_nat n - Z.of_nat m)) with (n - m)%nat by lia.
  replace (n - m - (n - m))%nat with 0%nat in F2, R2 by lia. unfold zseq. set (rows2 := map _ (map _ (seq 0 (n - m)))) in *.
  assert (Fa : Forall (fine_row n) (rows ++ rows2)) by (apply Forall_app; split; assumption).
  assert (Ra : Forall2 Rel (rows ++ rows2) (bez_rows K v (graw F) (graw G) n m m ++ shifts K v (n - m) (graw G))) by (apply Forall2_app; assumption).
  assert (L2 : length (bez_rows K v (graw F) (graw G) n m m ++ shifts K v (n - m) (graw G)) = n) by (rewrite app_length, (bez_rows_length K v), (shifts_length K v); lia).
  assert (La : length (rows ++ rows2) = n) by (rewrite <- L2; clear -Ra; induction Ra; cbn; congruence).
  destruct n as [|n'] eqn:En; [lia|]. rewrite <- En in *.
  destruct (p_det_ok n' (rows ++ rows2)) as (D & ED & ND & RD); [rewrite La; exact En|rewrite <- En; exact Fa|]. rewrite <- En in *.
  exists D. split; [exact ED|]. split; [exact ND|]. rewrite RD. rewrite (det_rel Rel _ _ rel_cols _ _ Ra).
  pose proof (dg_dl K HD v F NF) as DF. pose proof (dg_dl K HD v G NG) as DG. pose proof (dg_lc K HD v G NG Gne) as Ng.
  rewrite <- (bez_main K HD HG v (graw F) (graw G) n m DF DG Hnm Hm Ng).
  pose proof (DP0_det K HD v n' (bez_rows K v (graw F) (graw G) n m m ++ shifts K v (n - m) (graw G))) as X0. rewrite <- En in X0. symmetry. apply X0; [exact L2|].
  apply Forall_app. split; [apply (bez_rows_dl K HD v (graw F) (graw G) n m Hnm m (le_n _))|]. apply (shifts_dl K HD v (n - m) (graw G) (Datatypes.S m)); [exact DG|lia].
Qed.
End RBP.
