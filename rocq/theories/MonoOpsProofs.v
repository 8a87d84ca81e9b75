(** * Monomial operations of the polynomial layer (PolyOps.v) against exponents. *)
From Coq Require Import Sorting.Sorted Permutation.
From Verif Require Import Prelude Coef Spec SpecProofs SpecOps SpecOpsProofs OrderSpec PairVec PairVecProofs Mono MonoProofs
  MonoStruct MonoStructProofs PolyOps.
Local Open Scope Z_scope.

Section M.
Context (vo : vorder) (Hvo : vorder_ok vo).
Notation ex l v := (csum Zc (N.eqb v) l).
Notation dok := (dok vo).
Notation mok := (mok vo).

Lemma zexp_re_deg l v : zexp (re_deg l) v = ex l v.
Proof. reflexivity. Qed.

Lemma ex_in l w e : dok l -> In (w, e) l -> ex l w = e.
Proof.
  intros [H1 H2] Hin.
  apply (csum_desc_in (fun _ : var => True) vo N.eqb Zc Hvo Neqb_iff Zc_ring (w, e) l).
  - apply Forall_forall. intros; exact I.
  - exact H1.
  - exact Hin.
Qed.
Lemma ex_notin l w : ~ In w (map fst l) -> ex l w = 0.
Proof.
  intros H. apply (csum_notin Zc). intros a Ha. destruct (N.eqb_spec w a); [subst; contradiction|reflexivity].
Qed.
Lemma ex_pos_in l w : dok l -> (0 < ex l w <-> In w (map fst l)).
Proof.
  intros D. split.
  - intros H. destruct (in_dec N.eq_dec w (map fst l)) as [i|n]; [exact i|]. rewrite (ex_notin l w n) in H. lia.
  - intros H. apply in_map_iff in H as ([w' e] & <- & Hin). cbn [fst]. rewrite (ex_in l w' e D Hin).
    destruct D as [_ D]. rewrite Forall_forall in D. apply (D _ Hin).
Qed.

(** ** change_var_deg *)
Lemma cvd_keys (P : var -> Prop) v d l : P v -> Forall (fun t => P (fst t)) l -> Forall (fun t => P (fst t)) (cvd vo v d l).
Proof.
  intros Hv H. induction H as [|[w e] l Hw H IH]; cbn [cvd].
  - destruct (d =? 0); repeat constructor; assumption.
  - destruct (N.eqb v w), (d =? 0), (vo v w); repeat (first [assumption | constructor]).
Qed.
Lemma cvd_spec v d l : dok l -> 0 <= d ->
  dok (cvd vo v d l) /\ forall w, ex (cvd vo v d l) w = if N.eqb w v then d else ex l w.
Proof.
  intros D Hd. induction l as [|[u e] l IH]; cbn [cvd].
  - destruct (Z.eqb_spec d 0) as [->|n].
    + split; [exact D|]. intros w. simpl. destruct (N.eqb w v); reflexivity.
    + split; [apply dok_cons; repeat split; [simpl; lia|constructor|apply D|constructor]|].
      intros w. simpl. destruct (N.eqb w v); lia.
  - apply dok_cons in D as (P & G & D). cbn [fst snd] in *. destruct (N.eqb_spec v u) as [->|n].
    + pose proof (ex_before vo Hvo u l G) as Z. destruct (Z.eqb_spec d 0) as [->|n].
      * split; [exact D|]. intros w. cbn [csum fst snd]. destruct (N.eqb_spec w u) as [->|n]; [exact Z|reflexivity].
      * split; [apply dok_cons; cbn [fst snd]; repeat split; [lia|exact G|apply D|apply D]|].
        intros w. cbn [csum fst snd]. destruct (N.eqb_spec w u) as [->|n']; [|reflexivity]. rewrite Z. simpl. lia.
    + destruct (vo v u) eqn:E.
      * assert (G' : Forall (fun t => vo v (fst t) = true) ((u, e) :: l)).
        { constructor; [exact E|]. apply (Forall_vo_trans vo Hvo v u l E G). }
        pose proof (ex_before vo Hvo v _ G') as Z. destruct (Z.eqb_spec d 0) as [->|n'].
        -- split; [apply dok_cons; tauto|]. intros w. destruct (N.eqb_spec w v) as [->|n']; [exact Z|reflexivity].
        -- split; [apply dok_cons; cbn [fst snd]; split; [lia|split; [exact G'|apply dok_cons; tauto]]|].
           intros w. cbn [csum fst snd] in *. destruct (N.eqb_spec w v) as [->|n'']; [|reflexivity]. rewrite Z. simpl. lia.
      * destruct (IH D) as [D' X']. split.
        -- apply dok_cons. cbn [fst snd]. split; [exact P|]. split; [|exact D'].
           apply (cvd_keys (fun x => vo u x = true)); [|exact G].
           destruct (vo_total vo Hvo u v) as [E'|[E'|E']]; [congruence|exact E'|congruence].
        -- intros w. cbn [csum fst snd]. rewrite (X' w). destruct (N.eqb_spec w u) as [->|n'].
           ++ destruct (N.eqb_spec u v); [congruence|reflexivity].
           ++ reflexivity.
Qed.
Lemma change_var_deg_spec m v d : mok m -> 0 <= d ->
  mok (change_var_deg vo m v d) /\ forall w, zexp (change_var_deg vo m v d) w = if N.eqb w v then d else zexp m w.
Proof.
  intros H Hd. destruct (cvd_spec v d (md m) (mok_dok vo m H) Hd) as [D X].
  split; [apply mok_re_deg, D|exact X].
Qed.

(** ** powers of one variable *)
Lemma umono_spec v d : 0 <= d -> mok (umono v d) /\ forall w, zexp (umono v d) w = if N.eqb w v then d else 0.
Proof.
  intros Hd. unfold umono. destruct (Z.gtb_spec d 0) as [L|L].
  - split; [apply mok_re_deg, dok_cons; repeat split; [simpl; lia|constructor|constructor|constructor]|].
    intros w. rewrite zexp_re_deg. simpl. destruct (N.eqb w v); lia.
  - split; [apply mok_1|]. intros w. unfold zexp. simpl. destruct (N.eqb w v); lia.
Qed.
Lemma sm_umono v d : 0 <= d -> meq (sm (umono v d)) [(v, Z.to_N d)].
Proof.
  intros Hd w. destruct (umono_spec v d Hd) as [H X]. rewrite (exp_sm_mok vo _ w H), (X w). simpl.
  rewrite N.eqb_sym. destruct (N.eqb v w); lia.
Qed.
Lemma split_var m v d : mok m -> 0 <= d <= zexp m v ->
  m = mono_mul vo (change_var_deg vo m v (zexp m v - d)) (umono v d).
Proof.
  intros H Hd. destruct (change_var_deg_spec m v (zexp m v - d) H) as [H1 X1]; [lia|].
  destruct (umono_spec v d) as [H2 X2]; [lia|].
  apply (mok_ext vo Hvo); [exact H|apply mok_mul; assumption|]. intros w. rewrite (zexp_mul vo), (X1 w), (X2 w).
  destruct (N.eqb_spec w v) as [->|n]; lia.
Qed.
Lemma split_var_eq m m' v d : mok m -> mok m' -> 0 <= d ->
  (forall w, zexp m' w = if N.eqb w v then zexp m v - d else zexp m w) -> m = mono_mul vo m' (umono v d).
Proof.
  intros H H' Hd X. destruct (umono_spec v d Hd) as [H2 X2].
  apply (mok_ext vo Hvo); [exact H|apply mok_mul; assumption|]. intros w. rewrite (zexp_mul vo), (X w), (X2 w).
  destruct (N.eqb_spec w v) as [->|n]; lia.
Qed.
Lemma sm_drop m m' v : mok m -> mok m' -> (forall w, zexp m' w = if N.eqb w v then 0 else zexp m w) ->
  meq (sm m') (mdrop v (sm m)).
Proof.
  intros H H' X w. rewrite exp_mdrop, (exp_sm_mok vo _ w H'), (exp_sm_mok vo _ w H), (X w).
  destruct (N.eqb w v); reflexivity.
Qed.

(** ** filtering variables *)
Lemma dok_filter (P : var * Z -> bool) l : dok l -> dok (filter P l).
Proof.
  induction l as [|t l IH]; intros D; [exact D|]. apply dok_cons in D as (A & G & D). simpl.
  destruct (P t); [|apply IH, D]. apply dok_cons. split; [exact A|]. split; [|apply IH, D].
  rewrite Forall_forall in *. intros u Hu. apply filter_In in Hu as [Hu _]. apply G, Hu.
Qed.
Lemma ex_filter (P : var -> bool) l w : ex (filter (fun t => P (fst t)) l) w = if P w then ex l w else 0.
Proof.
  induction l as [|[u e] l IH]; cbn [filter csum fst]; [destruct (P w); reflexivity|].
  destruct (P u) eqn:E; cbn [csum]; rewrite IH.
  - destruct (N.eqb_spec w u) as [->|n]; [rewrite E; reflexivity|]. destruct (P w); reflexivity.
  - destruct (N.eqb_spec w u) as [->|n]; [rewrite E; reflexivity|]. destruct (P w); reflexivity.
Qed.
Lemma asg_mono_spec {C} (rho : var -> option C) m : mok m ->
  mok (asg_mono rho m) /\ forall w, zexp (asg_mono rho m) w = match rho w with Some _ => 0 | None => zexp m w end.
Proof.
  intros H. split; [apply mok_re_deg, dok_filter, mok_dok, H|]. intros w. unfold asg_mono. rewrite zexp_re_deg.
  rewrite (ex_filter (fun v => match rho v with Some _ => false | None => true end)). destruct (rho w); reflexivity.
Qed.

(** ** derivative of a monomial *)
Lemma dexp_spec x m : mok m -> dexp x m = zexp m x.
Proof.
  intros H. apply mok_dok in H. unfold dexp, zexp.
  assert (G : forall l b, dok l -> fold_left (fun b j => if N.eqb (fst j) x then snd j else b) l b
     = if existsb (fun j => N.eqb (fst j) x) l then ex l x else b).
  { induction l as [|[u e] l IH]; intros b D; [reflexivity|]. cbn [fold_left existsb csum fst snd].
    apply dok_cons in D as (A & G & D). cbn [fst snd] in *. rewrite (IH _ D). rewrite (N.eqb_sym x u).
    destruct (N.eqb_spec u x) as [->|n]; cbn [orb].
    - pose proof (ex_before vo Hvo x l G) as Z. destruct (existsb (fun j => N.eqb (fst j) x) l) eqn:E; rewrite Z; simpl; [|lia].
      exfalso. apply existsb_exists in E as (t & Hin & Ht). apply N.eqb_eq in Ht. rewrite Forall_forall in G.
      specialize (G t Hin). cbv beta in G. rewrite Ht, (vo_irrefl vo Hvo) in G. discriminate.
    - reflexivity. }
  rewrite (G _ _ H). destruct (existsb _ (md m)) eqn:E; [reflexivity|]. symmetry. apply ex_notin.
  intros Hin. apply in_map_iff in Hin as (t & Ht & Hin).
  assert (existsb (fun j => N.eqb (fst j) x) (md m) = true); [|congruence].
  apply existsb_exists. exists t. split; [exact Hin|apply N.eqb_eq, Ht].
Qed.
Lemma dmono_is_cvd x m : mok m -> 0 < zexp m x -> dmono x m = change_var_deg vo m x (zexp m x - 1).
Proof.
  intros H Hx. apply mok_dok in H. unfold dmono, change_var_deg, zexp in *. f_equal.
  induction (md m) as [|[u e] l IH]; [simpl in Hx; lia|].
  pose proof H as D. apply dok_cons in D as (A & G & D). cbn [fst snd] in *. cbn [flat_map cvd fst snd csum] in *.
  destruct (N.eqb_spec u x) as [->|n].
  - rewrite N.eqb_refl in *. pose proof (ex_before vo Hvo x l G) as Z0. rewrite Z0 in *.
    change (cadd Zc e 0) with (e + 0). replace (e + 0 - 1) with (e - 1) by lia.
    assert (Fl : flat_map (fun j : N * Z => if N.eqb (fst j) x then if snd j - 1 =? 0 then [] else [(x, snd j - 1)] else [j]) l = l).
    { clear - G Hvo. induction l as [|[w k] l IH]; [reflexivity|]. inversion G; subst. cbn [flat_map fst snd] in *.
      destruct (N.eqb_spec w x) as [->|_]; [rewrite (vo_irrefl vo Hvo) in *; discriminate|]. simpl. f_equal. apply IH. assumption. }
    rewrite Fl. destruct (e - 1 =? 0); reflexivity.
  - destruct (N.eqb_spec x u) as [->|_]; [congruence|].
    destruct (vo x u) eqn:E.
    + exfalso. pose proof (ex_before vo Hvo x l (Forall_vo_trans vo Hvo x u l E G)). lia.
    + simpl. f_equal. apply IH; assumption.
Qed.
Lemma dmono_spec x m : mok m -> 0 < zexp m x ->
  mok (dmono x m) /\ forall w, zexp (dmono x m) w = if N.eqb w x then zexp m x - 1 else zexp m w.
Proof. intros H Hx. rewrite (dmono_is_cvd x m H Hx). apply change_var_deg_spec; [exact H|lia]. Qed.

(** ** conversion of a monomial from another order *)
Lemma mono_of_spec msrt l : sort_ok (fun _ : var => True) vo msrt -> NoDup (map fst l) -> Forall (fun t => 0 < snd t) l ->
  mok (mono_of vo msrt l) /\ forall w, zexp (mono_of vo msrt l) w = ex l w.
Proof.
  intros Hs Hn Hp.
  assert (Hok : all_ok (fun _ : var => True) l) by (apply Forall_forall; intros; exact I).
  destruct (normalization_sound (fun _ : var => True) vo N.eqb Zc Hvo Neqb_iff Zc_ring msrt l Hs Hok) as (_ & Hd & Hc).
  assert (Hpos : forall l, Forall (fun t : var * Z => 0 < snd t) l -> Forall (fun t : var * Z => 0 < snd t) (norm_skip N.eqb Zc l)).
  { assert (G : forall r t, 0 < snd t -> Forall (fun t : var * Z => 0 < snd t) r -> Forall (fun t : var * Z => 0 < snd t) (norm_loop N.eqb Zc t r)).
    { induction r as [|u r IH]; intros t Ht Hr; cbn [norm_loop]; [repeat constructor; assumption|].
      inversion Hr; subst. destruct (is0 Zc (snd u)); [apply IH; assumption|].
      destruct (N.eqb (fst t) (fst u)); [apply IH; [simpl; lia|assumption]|constructor; [assumption|apply IH; assumption]]. }
    intros l' H'. induction H' as [|t r Ht Hr IH]; cbn [norm_skip]; [constructor|]. destruct (is0 Zc (snd t)); [exact IH|apply G; assumption]. }
  split; [|intros w; apply Hc]. apply mok_re_deg. split; [exact Hd|]. unfold pv_normalization. apply Hpos.
  destruct (is_sorted vo l); [exact Hp|]. destruct (Hs l Hok) as [Pm _].
  rewrite Forall_forall in *. intros t Ht. apply Hp. eapply Permutation_in; [symmetry; exact Pm|exact Ht].
Qed.
Lemma dok_nodup l : dok l -> NoDup (map fst l).
Proof.
  intros [H _]. unfold desc in H. induction H as [|a l0 Hs IH Hl]; constructor; [|exact IH].
  intros Hin. rewrite Forall_forall in Hl. specialize (Hl a Hin). rewrite (vo_irrefl vo Hvo) in Hl. discriminate.
Qed.
End M.

(** ** The univariate-priority order *)
Section Up.
Variable v : var.
Notation vo := (vuniv v).
Notation ex l v := (csum Zc (N.eqb v) l).
Let Hvo : vorder_ok vo := vuniv_ok v.
Lemma up_deg_spec m : mok vo m -> up_deg v m = zexp m v.
Proof.
  intros H. apply mok_dok in H. unfold up_deg, zexp. destruct (md m) as [|[w e] l]; [reflexivity|].
  apply dok_cons in H as (A & G & D). cbn [fst snd csum] in *. rewrite (N.eqb_sym v w). destruct (N.eqb_spec w v) as [->|n].
  - rewrite (ex_before vo Hvo v l G). simpl. lia.
  - symmetry. apply ex_notin. intros Hin. apply in_map_iff in Hin as (t & Ht & Hin).
    rewrite Forall_forall in G. specialize (G t Hin). cbv beta in G. rewrite Ht in G. unfold vuniv in G.
    rewrite N.eqb_refl in G. discriminate.
Qed.
Lemma change_up_is m d : mok vo m -> 0 <= d -> change_up v m d = change_var_deg vo m v d.
Proof.
  intros H Hd. pose proof (up_deg_spec m H) as U. unfold change_up. rewrite U.
  pose proof (mok_dok vo m H) as D0.
  destruct (change_var_deg_spec vo Hvo m v d H Hd) as [H1 X1].
  assert (Tl : forall w, zexp m v <> 0 -> ex (tl (md m)) w = if N.eqb w v then 0 else zexp m w).
  { intros w Hz. unfold up_deg in U. unfold zexp in *. destruct (md m) as [|[u e] l]; [simpl in Hz; lia|].
    apply dok_cons in D0 as (A & G & D). cbn [fst snd tl csum] in *. destruct (N.eqb_spec u v) as [->|n]; [|congruence].
    destruct (N.eqb_spec w v) as [->|n]; [apply (ex_before vo Hvo v l G)|reflexivity]. }
  assert (Dt : dok vo (tl (md m))) by (destruct (md m) as [|t l]; [exact D0|apply dok_cons in D0; apply D0]).
  assert (Bf : forall l, dok vo l -> ex l v = 0 -> Forall (fun t => vo v (fst t) = true) l).
  { intros l Dl Z. apply Forall_forall. intros [w e] Hin. unfold vuniv. cbn [fst]. rewrite N.eqb_refl. cbn [orb].
    rewrite andb_true_r. apply negb_true_iff. destruct (N.eqb_spec w v) as [->|]; [|reflexivity].
    rewrite (ex_in vo Hvo l v e Dl Hin) in Z. destruct Dl as [_ Dl]. rewrite Forall_forall in Dl. specialize (Dl _ Hin). simpl in Dl. lia. }
  destruct (Z.eqb_spec d 0) as [->|n].
  - destruct (Z.eqb_spec (zexp m v) 0) as [Z|Z].
    + apply (mok_ext vo Hvo); [exact H|exact H1|]. intros w. rewrite (X1 w). destruct (N.eqb_spec w v) as [->|]; [exact Z|reflexivity].
    + apply (mok_ext vo Hvo); [apply mok_re_deg, Dt|exact H1|].
      intros w. rewrite (X1 w), zexp_re_deg. apply Tl, Z.
  - destruct (Z.eqb_spec (zexp m v) 0) as [Z|Z].
    + apply (mok_ext vo Hvo); [apply mok_re_deg, dok_cons; repeat split; [simpl; lia|apply Bf; [exact D0|exact Z]|apply D0|apply D0]|exact H1|].
      intros w. rewrite (X1 w), zexp_re_deg. cbn [csum]. destruct (N.eqb_spec w v) as [->|]; [|reflexivity].
      change (ex (md m) v) with (zexp m v). rewrite Z. simpl. lia.
    + assert (Zt : ex (tl (md m)) v = 0) by (rewrite (Tl v Z), N.eqb_refl; reflexivity).
      apply (mok_ext vo Hvo); [apply mok_re_deg, dok_cons; repeat split; [simpl; lia|apply Bf; [exact Dt|exact Zt]|apply Dt|apply Dt]|exact H1|].
      intros w. rewrite (X1 w), zexp_re_deg. cbn [csum]. rewrite (Tl w Z). destruct (N.eqb_spec w v) as [->|]; [simpl; lia|reflexivity].
Qed.
End Up.
