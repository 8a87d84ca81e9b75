(** * A terminating run gives the same answer with every larger bound; the Ideal cache. *)
From Verif Require Import Prelude Coef Spec OrderSpec PairVec Mono MonoStruct Poly PolyOps QQ NumSpec QQProofs ConvertQQ Groebner GroebnerZZ.
Local Open Scope Z_scope.

Section Mono.
Context {C : Type} (K : coefs C) (dv : C -> C -> C) (vo : vorder) (S : monos mono) (psrt : list cpair -> list cpair).
Lemma nf_loop_mono G sv : forall n m h r s x, (n <= m)%nat -> nf_loop K dv S n G sv h r s = Ok x -> nf_loop K dv S m G sv h r s = Ok x.
Proof.
  induction n as [|n IH]; intros m h r0 s x Hm Hx; [discriminate|]. destruct m as [|m]; [lia|]. cbn [nf_loop] in *.
  destruct h as [|t h]; [exact Hx|]. destruct (find_red S (fst t) 0 G) as [[[[i q] g]|]| | |]; cbn [obind] in *; try discriminate; apply IH; try lia; exact Hx.
Qed.
Lemma nf_sugar_mono n m f G sv s x : (n <= m)%nat -> nf_sugar K dv S n f G sv s = Ok x -> nf_sugar K dv S m f G sv s = Ok x.
Proof. intros Hm. unfold nf_sugar. destruct f; [auto|]. destruct G; [auto|]. apply nf_loop_mono, Hm. Qed.
Lemma normal_form_mono n m f G x : (n <= m)%nat -> normal_form K dv S n f G = Ok x -> normal_form K dv S m f G = Ok x.
Proof.
  intros Hm. unfold normal_form. destruct (nf_sugar K dv S n f G [] 0) as [y| | |] eqn:E; cbn; try discriminate.
  rewrite (nf_sugar_mono n m f G [] 0 y Hm E). auto.
Qed.
Lemma bb_loop_mono : forall n m G sv pairs x, (n <= m)%nat -> bb_loop K dv vo S psrt n G sv pairs = Ok x -> bb_loop K dv vo S psrt m G sv pairs = Ok x.
Proof.
  induction n as [|n IH]; intros m G sv pairs x Hm Hx; [discriminate|]. destruct m as [|m]; [lia|]. cbn [bb_loop] in *.
  destruct pairs as [|p0 r0]; [exact Hx|]. destruct (take_min p0 [] [] r0) as [p rest].
  destruct (aget G (ci p)) as [gi| | |]; try discriminate. cbn [obind] in *. destruct (aget G (cj p)) as [gj| | |]; try discriminate. cbn [obind] in *.
  destruct (s_poly K dv vo S gi gj) as [h0| | |]; try discriminate. cbn [obind] in *.
  destruct (nf_sugar K dv S n h0 G sv (csug p)) as [[h hs]| | |] eqn:E; try discriminate. cbn [obind] in *.
  rewrite (nf_sugar_mono n m h0 G sv (csug p) (h, hs) ltac:(lia) E). cbn [obind].
  destruct h as [|t h]; [apply IH; [lia|exact Hx]|]. destruct (update vo S psrt G sv rest (make_monic K dv (t :: h)) hs) as [[G' sv'] pairs']. apply IH; [lia|exact Hx].
Qed.
Lemma reduce_all_mono n m : (n <= m)%nat -> forall rest done x, reduce_all K dv S n done rest = Ok x -> reduce_all K dv S m done rest = Ok x.
Proof.
  intros Hm. induction rest as [|g r IH]; intros done x Hx; cbn [reduce_all] in *; [exact Hx|].
  destruct (normal_form K dv S n g (done ++ r)) as [y| | |] eqn:E; try discriminate. rewrite (normal_form_mono n m _ _ y Hm E). cbn [obind] in *. apply IH, Hx.
Qed.
Lemma buchberger_mono n m F x : (n <= m)%nat -> buchberger K dv vo S psrt n F = Ok x -> buchberger K dv vo S psrt m F = Ok x.
Proof.
  intros Hm. unfold buchberger. destruct (map _ _) as [|g [|g2 r]]; [auto|apply reduce_all_mono, Hm|].
  destruct (init_loop vo S psrt [g] [p_totdeg g] [] (g2 :: r)) as [[G sv] pairs].
  destruct (bb_loop K dv vo S psrt n G sv pairs) as [y| | |] eqn:E; try discriminate. rewrite (bb_loop_mono n m _ _ _ y Hm E). cbn [obind]. apply reduce_all_mono, Hm.
Qed.
End Mono.
Lemma groebner_ZZ_mono vo S psrt msrt srtq srtz n m F x : (n <= m)%nat ->
  groebner_ZZ vo S psrt msrt srtq srtz n F = Ok x -> groebner_ZZ vo S psrt msrt srtq srtz m F = Ok x.
Proof.
  intros Hm. unfold groebner_ZZ, groebner_QQ. destruct (buchberger QQc _ vo S psrt n _) as [y| | |] eqn:E; try discriminate.
  rewrite (buchberger_mono QQc _ vo S psrt n m _ y Hm E). auto.
Qed.

(** Objects reachable from a fresh Ideal by any sequence of member calls. *)
Section Reach.
Context {C : Type} (gbf : nat -> list (poly C) -> outcome (list (poly C))).
Context (nff : nat -> poly C -> list (poly C) -> outcome (poly C)).
Inductive ideal_reach (F : list (poly C)) : ideal_obj -> Prop :=
| ir_new : ideal_reach F (ideal_new F)
| ir_gb : forall o n G o', ideal_reach F o -> ideal_gb gbf n o = Ok (G, o') -> ideal_reach F o'
| ir_reduce : forall o n f r o', ideal_reach F o -> ideal_reduce gbf nff n o f = Ok (r, o') -> ideal_reach F o'
| ir_contains : forall o n f b o', ideal_reach F o -> ideal_contains gbf nff n o f = Ok (b, o') -> ideal_reach F o'.

Lemma reach_inv F ob : ideal_reach F ob -> ob = ideal_new F \/ exists n G, gbf n F = Ok G /\ ob = IdealObj F G true.
Proof.
  assert (GB : forall o n G o', (o = ideal_new F \/ exists n G, gbf n F = Ok G /\ o = IdealObj F G true) -> ideal_gb gbf n o = Ok (G, o') ->
    (o' = ideal_new F \/ exists n G, gbf n F = Ok G /\ o' = IdealObj F G true)).
  { intros o n G o' [->|(n1 & G1 & E1 & ->)] E; unfold ideal_gb in E; cbn in E.
    - destruct (gbf n F) as [G1| | |] eqn:E1; try discriminate. injection E as <- <-. right. eauto.
    - injection E as <- <-. right. eauto. }
  assert (RD : forall o n f r o', ideal_reduce gbf nff n o f = Ok (r, o') -> exists G, ideal_gb gbf n o = Ok (G, o')).
  { intros o n f r o' E. unfold ideal_reduce in E. destruct (ideal_gb gbf n o) as [[G o1]| | |]; try discriminate. cbn in E.
    destruct (nff n f G); try discriminate. injection E as _ <-. eauto. }
  intros H; induction H as [|q n G q' _ IH E|q n f r q' _ IH E|q n f b q' _ IH E]; [auto|eauto| |].
  - apply RD in E. destruct E as [G E]. eauto.
  - unfold ideal_contains in E. destruct (ideal_reduce gbf nff n q f) as [[r o1]| | |] eqn:E1; try discriminate. cbn in E. injection E as _ <-.
    apply RD in E1. destruct E1 as [G E1]. eauto.
Qed.
Lemma ideal_gb_val F o Gv n0 : (forall n m x, (n <= m)%nat -> gbf n F = Ok x -> gbf m F = Ok x) -> (forall n, (n0 <= n)%nat -> gbf n F = Ok Gv) ->
  ideal_reach F o -> (forall n, (n0 <= n)%nat -> ideal_gb gbf n o = Ok (Gv, IdealObj F Gv true)) /\ (forall n G o', ideal_gb gbf n o = Ok (G, o') -> G = Gv /\ o' = IdealObj F Gv true).
Proof.
  intros HM HT HR. assert (U : forall n G, gbf n F = Ok G -> G = Gv).
  { intros n G E. apply (HM n (Nat.max n n0)) in E; [|lia]. rewrite HT in E by lia. congruence. }
  destruct (reach_inv F o HR) as [->|(n1 & G1 & E1 & ->)]; unfold ideal_gb; cbn [id_computed ideal_new id_gens id_cache].
  - split.
    + intros n Hn. rewrite HT by exact Hn. reflexivity.
    + intros n G o' E. destruct (gbf n F) as [G1| | |] eqn:E1; try discriminate. cbn in E. injection E as <- <-. apply U in E1. subst. auto.
  - apply U in E1. subst G1. split; [reflexivity|]. intros n G o' E. injection E as <- <-. auto.
Qed.
End Reach.
