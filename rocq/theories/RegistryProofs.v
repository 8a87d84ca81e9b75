(** * The variable registry: invariant over all histories. *)
From Coq Require Import String Ascii DecimalString DecimalNat DecimalFacts.
From Verif Require Import Prelude Registry.
Local Open Scope string_scope.

Lemma mfind_erase m k k' : mfind (merase m k) k' = if String.eqb k k' then None else mfind m k'.
Proof.
  unfold merase. induction m as [|[a s] m IH]; cbn; [destruct (String.eqb k k'); reflexivity|].
  destruct (String.eqb_spec a k) as [->|n]; cbn.
  - rewrite IH. destruct (String.eqb k k'); reflexivity.
  - rewrite IH. destruct (String.eqb_spec a k') as [->|]; [|reflexivity].
    destruct (String.eqb_spec k k'); [congruence|reflexivity].
Qed.
Lemma mfind_set m k s k' : mfind (mset m k s) k' = if String.eqb k k' then Some s else mfind m k'.
Proof. unfold mset. cbn. rewrite mfind_erase. destruct (String.eqb k k'); reflexivity. Qed.

Lemma nth_lset {A} (l : list A) i x j d : nth j (lset l i x) d = if andb (Nat.eqb i j) (Nat.ltb i (List.length l)) then x else nth j l d.
Proof.
  revert i j. induction l as [|a l IH]; intros [|i] [|j]; cbn [lset nth List.length]; try reflexivity.
  - cbn. rewrite Bool.andb_false_r. reflexivity.
  - rewrite IH. cbn [Nat.eqb]. replace (Nat.ltb (S i) (S (List.length l))) with (Nat.ltb i (List.length l)); [reflexivity|].
    destruct (Nat.ltb_spec i (List.length l)), (Nat.ltb_spec (S i) (S (List.length l))); lia || reflexivity.
Qed.
Lemma lset_length {A} (l : list A) i x : List.length (lset l i x) = List.length l.
Proof. revert i; induction l as [|a l IH]; intros [|i]; cbn; auto. Qed.

Lemma to_string_inj a b : to_string a = to_string b -> a = b.
Proof.
  unfold to_string. intros H.
  assert (E : NilZero.uint_of_string (NilZero.string_of_uint (Nat.to_uint a)) = NilZero.uint_of_string (NilZero.string_of_uint (Nat.to_uint b))) by (rewrite H; reflexivity).
  assert (Nz : forall n, Nat.to_uint n <> Decimal.Nil).
  { intros n E0. pose proof (DecimalNat.Unsigned.of_to n) as X. rewrite E0 in X. destruct n; [discriminate E0|]. cbn in X. discriminate. }
  rewrite !NilZero.usu in E by apply Nz. injection E as E. apply DecimalNat.Unsigned.to_uint_inj, E.
Qed.
Lemma anon_inj a b : anon_name a = anon_name b -> a = b.
Proof. unfold anon_name. cbn. intros H. injection H as H. apply to_string_inj, H. Qed.
Lemma anon_nonempty a : anon_name a <> "".
Proof. unfold anon_name. cbn. discriminate. Qed.

(** [tame nm s]: the name is not of the reserved form, or carries its own serial. *)
Definition reserved (nm : string) : Prop := exists n, nm = anon_name n.

Record rinv (st : registry) : Prop := {
  ri_len : 0 < List.length (r_vars st);
  ri_zero : name_of st 0 = "";
  ri_map : forall nm s, mfind (r_map st) nm = Some s -> s < List.length (r_vars st) /\ name_of st s = nm;
  ri_live : forall s, live st s -> mfind (r_map st) (name_of st s) = Some s;
  ri_empty : mfind (r_map st) "" = Some 0;
  ri_res : forall s n, name_of st s = anon_name n -> n = s;
  ri_free : NoDup (r_free st) /\ forall s, In s (r_free st) <-> (0 < s < List.length (r_vars st) /\ name_of st s = "");
}.

Lemma live_lt st s : live st s -> s < List.length (r_vars st).
Proof.
  unfold live, name_of. intros H. destruct (Nat.ltb_spec s (List.length (r_vars st))); [assumption|].
  rewrite nth_overflow in H by assumption. contradiction.
Qed.

Lemma rinv_init : rinv reg_init.
Proof.
  split; cbn.
  - lia.
  - reflexivity.
  - intros nm s. destruct nm; [|discriminate]. intros [= <-]. split; [lia|reflexivity].
  - intros [|[|s]] H; exfalso; apply H; reflexivity.
  - reflexivity.
  - intros [|[|s]] n; discriminate.
  - split; [constructor|]. intros s. split; [intros []|]. intros [H _]. lia.
Qed.


(** The part of the invariant that no choice of names can break. *)
Record winv (st : registry) : Prop := {
  wi_len : 0 < List.length (r_vars st);
  wi_zero : name_of st 0 = "";
  wi_free : NoDup (r_free st) /\ forall s, In s (r_free st) <-> (0 < s < List.length (r_vars st) /\ name_of st s = "");
}.
Lemma rinv_winv st : rinv st -> winv st.
Proof. intros H. split; apply H. Qed.

Lemma init_named_eq st nm : winv st -> exists s vars' fr,
  init_named st nm = (s, Reg vars' (mset (r_map st) nm s) fr) /\
  nth s vars' "" = nm /\ s < List.length vars' /\
  (forall j, j <> s -> nth j vars' "" = nth j (r_vars st) "") /\
  0 < s /\ name_of st s = "" /\ List.length (r_vars st) <= List.length vars' /\ NoDup fr /\
  (forall j, In j fr <-> (0 < j < List.length vars' /\ nth j vars' "" = "" /\ j <> s)) /\
  s = (match r_free st with [] => List.length (r_vars st) | s :: _ => s end).
Proof.
  intros HI. unfold init_named. destruct (r_free st) as [|s fr] eqn:Ef.
  - exists (List.length (r_vars st)), (r_vars st ++ [nm])%list, []. split; [reflexivity|].
    split; [rewrite app_nth2, Nat.sub_diag by lia; reflexivity|].
    split; [rewrite app_length; cbn; lia|]. split.
    { intros j Hj. destruct (Nat.ltb_spec j (List.length (r_vars st))).
      - apply app_nth1. assumption.
      - rewrite (nth_overflow (r_vars st)) by assumption. apply nth_overflow. rewrite app_length. cbn. lia. }
    split; [apply HI|]. split; [unfold name_of; apply nth_overflow; lia|].
    rewrite app_length. cbn [List.length]. split; [lia|]. split; [constructor|]. split; [|reflexivity].
    intros j. split; [intros []|]. intros (H1 & H2 & H3).
    assert (j < List.length (r_vars st)) by lia. rewrite app_nth1 in H2 by assumption.
    destruct (wi_free st HI) as [_ F]. rewrite Ef in F. apply (F j). split; [lia|exact H2].
  - exists s, (lset (r_vars st) s nm), fr. split; [reflexivity|].
    assert (D : forall j d, nth j (lset (r_vars st) s nm) d = if andb (Nat.eqb s j) (Nat.ltb s (List.length (r_vars st))) then nm else nth j (r_vars st) d) by (intros; apply nth_lset).
    destruct (wi_free st HI) as [ND F]. destruct (proj1 (F s)) as [H1 H2]; [rewrite Ef; left; reflexivity|].
    destruct (Nat.ltb_spec s (List.length (r_vars st))) as [L|L]; [|lia].
    split; [rewrite D, Nat.eqb_refl; reflexivity|]. rewrite lset_length. split; [exact L|]. split.
    { intros j Hj. rewrite D. destruct (Nat.eqb_spec s j); [congruence|reflexivity]. }
    split; [apply H1|]. split; [exact H2|]. split; [lia|].
    rewrite Ef in *. inversion ND as [|? ? Hn ND']; subst. split; [exact ND'|]. split; [|reflexivity].
    intros j. rewrite D. split.
    * intros Hj. assert (j <> s) by congruence. destruct (proj1 (F j) (or_intror Hj)) as [A B].
      destruct (Nat.eqb_spec s j); [congruence|]. cbn [andb]. repeat split; try lia; auto.
    * intros (A & B & Cn). destruct (Nat.eqb_spec s j); [congruence|]. cbn [andb] in B.
      destruct (proj2 (F j) (conj A B)) as [?|?]; [congruence|assumption].
Qed.

Definition next_serial (st : registry) : nat := match r_free st with [] => List.length (r_vars st) | s :: _ => s end.

Lemma init_named_inv st nm : rinv st -> nm <> "" -> mfind (r_map st) nm = None ->
  (forall n, nm = anon_name n -> n = next_serial st) ->
  exists s st', init_named st nm = (s, st') /\ rinv st' /\ ~ live st s /\ name_of st' s = nm /\ s = next_serial st /\
    forall j, j <> s -> name_of st' j = name_of st j.
Proof.
  intros HI Hne Hf Hr. destruct (init_named_eq st nm (rinv_winv st HI)) as (s & vars' & fr & E & N1 & L1 & N2 & S0 & Em & Ll & ND & Fr & Es).
  exists s, (Reg vars' (mset (r_map st) nm s) fr). split; [exact E|].
  assert (Oth : forall j, j <> s -> name_of (Reg vars' (mset (r_map st) nm s) fr) j = name_of st j) by exact N2.
  split; [|split; [intros H; apply H, Em|split; [exact N1|split; [exact Es|exact Oth]]]].
  split; cbn [r_vars r_map r_free].
  - lia.
  - unfold name_of; cbn. rewrite N2 by lia. apply (ri_zero st HI).
  - intros k j. rewrite mfind_set. destruct (String.eqb_spec nm k) as [<-|n].
    + intros [= <-]. split; [exact L1|exact N1].
    + intros H. destruct (ri_map st HI k j H) as [A B]. split; [lia|]. rewrite Oth; [exact B|].
      intros ->. destruct k; [|unfold name_of in *; congruence]. pose proof (ri_empty st HI). assert (s = 0) by congruence. lia.
  - intros j Hj. rewrite mfind_set. destruct (Nat.eq_dec j s) as [->|n].
    + change (name_of _ s) with (nth s vars' ""). rewrite N1, String.eqb_refl. reflexivity.
    + unfold live in Hj. rewrite Oth in * by exact n. pose proof (ri_live st HI j Hj) as X.
      destruct (String.eqb_spec nm (name_of st j)) as [e|]; [|exact X]. rewrite <- e in X. congruence.
  - rewrite mfind_set. destruct (String.eqb_spec nm ""); [contradiction|]. apply (ri_empty st HI).
  - intros j n. destruct (Nat.eq_dec j s) as [->|ne].
    + change (name_of _ s) with (nth s vars' ""). rewrite N1. intros H. rewrite (Hr n H). symmetry. exact Es.
    + rewrite Oth by exact ne. apply (ri_res st HI).
  - split; [exact ND|]. intros j. rewrite Fr. split.
    + intros (A & B & D). auto.
    + intros (A & B). repeat split; try lia; try exact B. intros ->. unfold name_of in B. cbn in B. congruence.
Qed.

Lemma del_serial_inv st s : rinv st -> rinv (del_serial st s) /\ name_of (del_serial st s) s = "" /\
  (forall j, j <> s -> name_of (del_serial st s) j = name_of st j).
Proof.
  intros HI. unfold del_serial. destruct (nth_error (r_vars st) s) as [nm|] eqn:E.
  2: { split; [exact HI|]. split; [|reflexivity]. unfold name_of. apply nth_overflow. apply nth_error_None, E. }
  assert (Ls : s < List.length (r_vars st)) by (apply nth_error_Some; congruence).
  assert (En : name_of st s = nm) by (unfold name_of; apply nth_error_nth; exact E).
  destruct (String.eqb_spec nm "") as [->|Hne]; [split; [exact HI|split; [exact En|reflexivity]]|].
  set (st' := Reg _ _ _).
  assert (D : forall j, name_of st' j = if Nat.eqb s j then "" else name_of st j).
  { intros j. unfold name_of, st'. cbn [r_vars]. rewrite nth_lset. destruct (Nat.ltb_spec s (List.length (r_vars st))); [|lia].
    rewrite Bool.andb_true_r. reflexivity. }
  split; [|split; [rewrite D, Nat.eqb_refl; reflexivity|intros j Hj; rewrite D; destruct (Nat.eqb_spec s j); [congruence|reflexivity]]].
  assert (S0 : s <> 0) by (intros ->; rewrite (ri_zero st HI) in En; congruence).
  assert (Lv : live st s) by (unfold live; congruence).
  split.
  - unfold st'. cbn. rewrite lset_length. apply HI.
  - rewrite D. destruct (Nat.eqb s 0); [reflexivity|apply (ri_zero st HI)].
  - intros k j. unfold st' at 1. cbn [r_map]. rewrite mfind_erase. destruct (String.eqb_spec nm k); [discriminate|].
    intros H. destruct (ri_map st HI k j H) as [A B]. split; [unfold st'; cbn; rewrite lset_length; exact A|].
    rewrite D. destruct (Nat.eqb_spec s j) as [<-|]; [congruence|exact B].
  - intros j Hj. unfold live in Hj. rewrite D in *. destruct (Nat.eqb_spec s j) as [|n]; [contradiction|].
    unfold st'. cbn [r_map]. rewrite mfind_erase. pose proof (ri_live st HI j Hj) as X.
    destruct (String.eqb_spec nm (name_of st j)) as [e|]; [|exact X]. exfalso. rewrite <- e in X.
    pose proof (ri_live st HI s Lv) as Y. rewrite En in Y. congruence.
  - unfold st'. cbn [r_map]. rewrite mfind_erase. destruct (String.eqb_spec nm ""); [contradiction|]. apply (ri_empty st HI).
  - intros j n. rewrite D. destruct (Nat.eqb s j); [intros H; exfalso; apply (anon_nonempty n); symmetry; exact H|apply (ri_res st HI)].
  - destruct (ri_free st HI) as [ND F]. unfold st' at 1 2. cbn [r_free]. split.
    + constructor; [|exact ND]. intros H. apply F in H as [_ H]. congruence.
    + intros j. unfold st' at 1. cbn [r_vars]. rewrite lset_length, D. cbn [In]. rewrite F.
      destruct (Nat.eqb_spec s j) as [<-|n]; [split; [intros _; split; [lia|reflexivity]|intros _; left; reflexivity]|].
      split; [intros [?|?]; [congruence|assumption]|intros H; right; exact H].
Qed.

(** Names the user may pass without meeting the reserved form. *)
Definition plain_op (o : rop) : Prop :=
  match o with OpGet nm | OpNew nm => forall n, nm <> anon_name n | _ => True end.

Lemma anon_fresh st : rinv st -> mfind (r_map st) (anon_name (next_serial st)) = None.
Proof.
  intros HI. destruct (mfind (r_map st) (anon_name (next_serial st))) as [s|] eqn:E; [|reflexivity]. exfalso.
  destruct (ri_map st HI _ _ E) as [A B]. pose proof (ri_res st HI s _ B) as X.
  unfold next_serial in *. destruct (r_free st) as [|f fr] eqn:Ef; [lia|].
  destruct (ri_free st HI) as [_ F]. rewrite Ef in F. destruct (proj1 (F f) (or_introl eq_refl)) as [_ H].
  subst s. rewrite H in B. apply (anon_nonempty f). symmetry. exact B.
Qed.

Lemma rstep_inv st o : rinv st -> (match o with OpGet nm | OpNew nm => mfind (r_map st) nm = None -> forall n, nm = anon_name n -> n = next_serial st | _ => True end) ->
  match rstep st o with
  | Ok (_, st') => rinv st'
  | Throw => True
  | _ => False
  end.
Proof.
  intros HI Hp. destruct o as [nm|nm| |s|nm|s]; cbn [rstep].
  - unfold get_named. destruct (mfind (r_map st) nm) as [s|] eqn:E.
    + destruct (ri_map st HI nm s E) as [A _]. destruct (Nat.ltb_spec s (List.length (r_vars st))); [exact HI|lia].
    + unfold user_name_ok. destruct (String.eqb_spec nm "") as [->|Hne]; [rewrite (ri_empty st HI) in E; discriminate|].
      cbn [negb]. destruct (init_named_inv st nm HI Hne E (Hp eq_refl)) as (s & st' & -> & HI' & _). exact HI'.
  - unfold new_named. destruct (mfind (r_map st) nm) as [s|] eqn:E; [exact I|].
    unfold user_name_ok. destruct (String.eqb_spec nm "") as [->|Hne]; [rewrite (ri_empty st HI) in E; discriminate|].
    cbn [negb]. destruct (init_named_inv st nm HI Hne E (Hp eq_refl)) as (s & st' & -> & HI' & _). exact HI'.
  - assert (E : init_anon st = init_named st (anon_name (next_serial st))).
    { unfold init_anon, next_serial. destruct (r_free st); reflexivity. }
    rewrite E. destruct (init_named_inv st _ HI (anon_nonempty _) (anon_fresh st HI)) as (s & st' & -> & HI' & _); [|exact HI'].
    intros n H. apply anon_inj in H. auto.
  - apply del_serial_inv, HI.
  - unfold del_named. destruct (mfind (r_map st) nm); [apply del_serial_inv, HI|exact HI].
  - unfold get_serial. destruct (nth_error (r_vars st) s) as [nm|]; [|exact I]. destruct (String.eqb nm ""); [exact I|exact HI].
Qed.

Lemma rrun_inv h : forall st, rinv st -> Forall plain_op h ->
  match rrun st h with Ok st' => rinv st' | Throw => True | _ => False end.
Proof.
  induction h as [|o h IH]; intros st HI Hp; [exact HI|]. apply Forall_cons_iff in Hp as [H1 H2].
  cbn [rrun]. pose proof (rstep_inv st o HI) as X.
  assert (Y : match o with OpGet nm | OpNew nm => mfind (r_map st) nm = None -> forall n, nm = anon_name n -> n = next_serial st | _ => True end).
  { destruct o; try exact I; intros _ n E; exfalso; apply (H1 n), E. }
  specialize (X Y). destruct (rstep st o) as [[r st']| | |]; try contradiction; cbn [obind]; [apply IH; assumption|exact I].
Qed.

Lemma init_named_winv st nm : winv st -> nm <> "" ->
  exists s st', init_named st nm = (s, st') /\ winv st' /\ ~ live st s /\ name_of st' s = nm /\
    forall j, j <> s -> name_of st' j = name_of st j.
Proof.
  intros HI Hne. destruct (init_named_eq st nm HI) as (s & vars' & fr & E & N1 & L1 & N2 & S0 & Em & Ll & ND & Fr & Es).
  exists s, (Reg vars' (mset (r_map st) nm s) fr). split; [exact E|].
  split; [|split; [intros H; apply H, Em|split; [exact N1|exact N2]]].
  split; cbn [r_vars r_map r_free].
  - lia.
  - unfold name_of; cbn. rewrite N2 by lia. apply (wi_zero st HI).
  - split; [exact ND|]. intros j. rewrite Fr. split.
    + intros (A & B & D). auto.
    + intros (A & B). repeat split; try lia; try exact B. intros ->. unfold name_of in B. cbn in B. congruence.
Qed.
Lemma del_serial_winv st s : winv st -> winv (del_serial st s).
Proof.
  intros HI. unfold del_serial. destruct (nth_error (r_vars st) s) as [nm|] eqn:E; [|exact HI].
  assert (Ls : s < List.length (r_vars st)) by (apply nth_error_Some; congruence).
  assert (En : name_of st s = nm) by (unfold name_of; apply nth_error_nth; exact E).
  destruct (String.eqb_spec nm "") as [->|Hne]; [exact HI|].
  set (st' := Reg _ _ _).
  assert (D : forall j, name_of st' j = if Nat.eqb s j then "" else name_of st j).
  { intros j. unfold name_of, st'. cbn [r_vars]. rewrite nth_lset. destruct (Nat.ltb_spec s (List.length (r_vars st))); [|lia].
    rewrite Bool.andb_true_r. reflexivity. }
  assert (S0 : s <> 0) by (intros ->; rewrite (wi_zero st HI) in En; congruence).
  split.
  - unfold st'. cbn. rewrite lset_length. apply HI.
  - rewrite D. destruct (Nat.eqb s 0); [reflexivity|apply (wi_zero st HI)].
  - destruct (wi_free st HI) as [ND F]. unfold st' at 1 2. cbn [r_free]. split.
    + constructor; [|exact ND]. intros H. apply F in H as [_ H]. congruence.
    + intros j. unfold st' at 1. cbn [r_vars]. rewrite lset_length, D. cbn [In]. rewrite F.
      destruct (Nat.eqb_spec s j) as [<-|n]; [split; [intros _; split; [lia|reflexivity]|intros _; left; reflexivity]|].
      split; [intros [?|?]; [congruence|assumption]|intros H; right; exact H].
Qed.
Lemma user_ok nm : user_name_ok nm = true -> nm <> "".
Proof. unfold user_name_ok. destruct (String.eqb_spec nm ""); [discriminate|auto]. Qed.
Lemma init_anon_named st : init_anon st = init_named st (anon_name (next_serial st)).
Proof. unfold init_anon, next_serial. destruct (r_free st); reflexivity. Qed.
Lemma rstep_winv st o : winv st -> match rstep st o with Ok (_, st') => winv st' | _ => True end.
Proof.
  intros HI. destruct o as [nm|nm| |s|nm|s]; cbn [rstep].
  - unfold get_named. destruct (mfind (r_map st) nm) as [s|].
    + destruct (Nat.ltb s _); [exact HI|exact I].
    + destruct (user_name_ok nm) eqn:E; [|exact I].
      destruct (init_named_winv st nm HI (user_ok nm E)) as (s & st' & -> & H & _). exact H.
  - unfold new_named. destruct (mfind (r_map st) nm) as [s|]; [exact I|].
    destruct (user_name_ok nm) eqn:E; [|exact I].
    destruct (init_named_winv st nm HI (user_ok nm E)) as (s & st' & -> & H & _). exact H.
  - rewrite init_anon_named. destruct (init_named_winv st _ HI (anon_nonempty (next_serial st))) as (s & st' & -> & H & _). exact H.
  - apply del_serial_winv, HI.
  - unfold del_named. destruct (mfind (r_map st) nm); [apply del_serial_winv, HI|exact HI].
  - unfold get_serial. destruct (nth_error (r_vars st) s) as [nm|]; [|exact I]. destruct (String.eqb nm ""); [exact I|exact HI].
Qed.
Lemma rrun_winv h : forall st, winv st -> forall st', rrun st h = Ok st' -> winv st'.
Proof.
  induction h as [|o h IH]; intros st HI st' E; [injection E as <-; exact HI|].
  cbn [rrun] in E. pose proof (rstep_winv st o HI) as X. destruct (rstep st o) as [[r s1]| | |]; try discriminate.
  cbn [obind] in E. eapply IH; eassumption.
Qed.
