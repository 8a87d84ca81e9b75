(** * C06: the variable registry.
    A history is any list of operations (Registry.v [rop]) run from the initial registry; [name_of st s] is what
    [v.name()] prints for the variable with serial [s]; a serial is live when that name is not empty. *)
From Coq Require Import String.
From Verif Require Import Prelude Registry RegistryProofs.
Local Open Scope string_scope.

(** No user-supplied name has the reserved form "#var_<number>". *)
Definition no_reserved_names (h : list rop) : Prop :=
  forall o, In o h -> match o with OpGet nm | OpNew nm => forall n : nat, nm <> ("#var_" ++ to_string n) | _ => True end.

Theorem C06_registry_partial : forall h st, no_reserved_names h -> rrun reg_init h = Ok st ->
  (* a live name denotes one variable *)
  (forall s s', live st s -> live st s' -> name_of st s = name_of st s' -> s = s') /\
  (* asking for it returns that variable and changes nothing *)
  (forall s, live st s -> get_named st (name_of st s) = Ok (s, st)) /\
  (* asking for a name that is not live creates a variable that was not live, with this name, and leaves the
     others alone *)
  (forall nm, nm <> "" -> (forall s, live st s -> name_of st s <> nm) -> (forall n, nm <> ("#var_" ++ to_string n)) ->
     exists s st', get_named st nm = Ok (s, st') /\ new_named st nm = Ok (s, st') /\
       ~ live st s /\ name_of st' s = nm /\ forall j, j <> s -> name_of st' j = name_of st j) /\
  (exists s st', rstep st OpAnon = Ok (Some s, st') /\ ~ live st s /\ live st' s /\
       (forall j, live st j -> name_of st j <> name_of st' s) /\ forall j, j <> s -> name_of st' j = name_of st j).
Proof.
  intros h st Hp E. assert (Hi : rinv st).
  { pose proof (rrun_inv h reg_init rinv_init) as X. rewrite E in X. apply X. apply Forall_forall. intros o Ho.
    specialize (Hp o Ho). destruct o; try exact I; exact Hp. }
  split; [|split; [|split]].
  - intros s s' H1 H2 En. pose proof (ri_live st Hi s H1) as A. pose proof (ri_live st Hi s' H2) as B. rewrite <- En in B. congruence.
  - intros s H1. unfold get_named. rewrite (ri_live st Hi s H1). pose proof (live_lt st s H1).
    destruct (Nat.ltb_spec s (List.length (r_vars st))); [reflexivity|lia].
  - intros nm Hne Hnl Hr. assert (F : mfind (r_map st) nm = None).
    { destruct (mfind (r_map st) nm) as [s|] eqn:F; [|reflexivity]. destruct (ri_map st Hi nm s F) as [_ B].
      exfalso. apply (Hnl s); [unfold live; congruence|exact B]. }
    destruct (init_named_inv st nm Hi Hne F) as (s & st' & Ei & _ & A & B & _ & D).
    { intros n En. exfalso. apply (Hr n En). }
    exists s, st'. unfold get_named, new_named. rewrite F. unfold user_name_ok. destruct (String.eqb_spec nm ""); [contradiction|].
    cbn [negb]. rewrite Ei. auto.
  - destruct (init_named_inv st _ Hi (anon_nonempty _) (anon_fresh st Hi)) as (s & st' & Ei & _ & A & B & _ & D).
    { intros n En. apply anon_inj in En. auto. }
    exists s, st'. cbn [rstep]. rewrite init_anon_named, Ei. split; [reflexivity|]. split; [exact A|].
    split; [unfold live; rewrite B; apply anon_nonempty|]. split; [|exact D].
    intros j Hj En. pose proof (ri_live st Hi j Hj) as X. rewrite En, B, (anon_fresh st Hi) in X. discriminate.
Qed.
Print Assumptions C06_registry_partial.

Theorem C06_deletion : forall h st s, no_reserved_names h -> rrun reg_init h = Ok st ->
  let st' := del_serial st s in
  ~ live st' s /\ (forall j, j <> s -> name_of st' j = name_of st j) /\
  (live st s -> del_named st (name_of st s) = st').
Proof.
  intros h st s Hp E. assert (Hi : rinv st).
  { pose proof (rrun_inv h reg_init rinv_init) as X. rewrite E in X. apply X. apply Forall_forall. intros o Ho.
    specialize (Hp o Ho). destruct o; try exact I; exact Hp. }
  destruct (del_serial_inv st s Hi) as (_ & A & B). cbv zeta. split; [intros H; apply H, A|]. split; [exact B|].
  intros Hl. unfold del_named. rewrite (ri_live st Hi s Hl). reflexivity.
Qed.
Print Assumptions C06_deletion.

(** Whatever names were used, a new variable is never one that is already live. *)
Theorem C06_fresh_never_live : forall h st o s st', rrun reg_init h = Ok st ->
  (o = OpAnon \/ exists nm, o = OpNew nm) -> rstep st o = Ok (Some s, st') ->
  ~ live st s /\ live st' s /\ forall j, j <> s -> name_of st' j = name_of st j.
Proof.
  intros h st o s st' E Ho Es. assert (Hi : winv st) by (apply (rrun_winv h reg_init (rinv_winv _ rinv_init)); exact E).
  destruct Ho as [->|[nm ->]]; cbn [rstep] in Es.
  - rewrite init_anon_named in Es. destruct (init_named_winv st _ Hi (anon_nonempty (next_serial st))) as (s1 & st1 & Ei & _ & A & B & D).
    rewrite Ei in Es. injection Es as <- <-. split; [exact A|]. split; [unfold live; rewrite B; apply anon_nonempty|exact D].
  - unfold new_named in Es. destruct (mfind (r_map st) nm); [discriminate|]. destruct (user_name_ok nm) eqn:U; [|discriminate].
    destruct (init_named_winv st nm Hi (user_ok nm U)) as (s1 & st1 & Ei & _ & A & B & D).
    rewrite Ei in Es. injection Es as <- <-. split; [exact A|]. split; [unfold live; rewrite B; apply user_ok, U|exact D].
Qed.
Print Assumptions C06_fresh_never_live.

(** The full claim is false: variable("#var_2") followed by new_variable() gives two different live variables
    with the same name, and variable("#var_2") then denotes the second one. *)
Theorem C06_registry_refuted : exists h st, rrun reg_init h = Ok st /\
  live st 1 /\ live st 2 /\ name_of st 1 = name_of st 2 /\ get_named st (name_of st 1) = Ok (2, st).
Proof.
  exists [OpGet "#var_2"; OpAnon]. eexists. split; [vm_compute; reflexivity|]. split; [discriminate|]. split; [discriminate|]. split; reflexivity.
Qed.
Print Assumptions C06_registry_refuted.

(** Non-vacuity: a history with reuse of a deleted serial. *)
Example C06_example : exists st, rrun reg_init [OpGet "x"; OpNew "y"; OpAnon; OpDelName "y"; OpGet "z"; OpAnon] = Ok st /\
  no_reserved_names [OpGet "x"; OpNew "y"; OpAnon; OpDelName "y"; OpGet "z"; OpAnon] /\
  map (name_of st) [1; 2; 3; 4] = ["x"; "z"; "#var_3"; "#var_4"].
Proof.
  eexists. split; [vm_compute; reflexivity|]. split; [|reflexivity].
  intros o Ho. cbn in Ho. repeat destruct Ho as [<-|Ho]; try exact I; try contradiction; intros n; discriminate.
Qed.
