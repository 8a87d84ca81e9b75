(** * C16-C18: polynomial division (without the packed-monomial shortcut, which is C13/C14).
    A call with a loop bound [fuel] that gives the same answer for every large enough bound is a call
    that terminates with that answer: [terminates_with]. *)
From Verif Require Import Prelude Coef Spec SpecProofs OrderSpec PairVec PairVecProofs Mono MonoProofs Heap
  MonoStruct MonoStructProofs Library LibraryProofs Poly PolyMulProofs Div DivProofs PolyDivProofs
  QQ NumSpec QQProofs ZpProofs Props_Poly.

Definition terminates_with {A} (f : nat -> outcome A) (a : A) : Prop :=
  exists fuel0, forall fuel, (fuel0 <= fuel)%nat -> f fuel = Ok a.

(** operator/ and pair_vec_div with remainder of a polynomial type (basic_polynomial.hh 286-302,
    polynomial_.hh), without the packed shortcut. *)
Definition poly_div {M C} (S : monos M) (K : coefs C) F G (fuel : nat) :=
  pair_vec_div (m_gt S) (m_eq S) (m_mul S) (m_div S) K fuel (fun _ _ => Ok None) F G.
Definition poly_divrem {M C} (S : monos M) (K : coefs C) F G (fuel : nat) :=
  pair_vec_div_rem (m_gt S) (m_eq S) (m_mul S) (m_div S) K fuel (fun _ _ => Ok None) F G.

(** C16.  If G divides F, the quotient returned is the exact one, in normal form. *)
Theorem C16_exact_division : forall M (S : monos M) ok sm C (K : coefs C),
  lib_monos S ok sm -> domain_ok K -> quorem_ok K ->
  forall F G, normal ok (m_gt S) K F -> normal ok (m_gt S) K G -> G <> [] ->
  forall H, normal ok (m_gt S) K H -> req K (graw sm F) (rmul K (graw sm H) (graw sm G)) ->
  terminates_with (poly_div S K F G) H.
Proof.
  intros M S ok sm C K HS HD HQ F G NF NG Gne H NH E. apply lib_monos_ok in HS.
  apply (p_div_exact S ok sm K HS (domain_ring K HD) HD HQ (fun _ _ => Ok None) F G H); try assumption. exact I.
Qed.
Print Assumptions C16_exact_division.
(** In particular (A*B)/B = A for the library's own product. *)
Theorem C16_product_then_quotient : forall M (S : monos M) ok sm C (K : coefs C),
  lib_monos S ok sm -> domain_ok K -> quorem_ok K ->
  forall A B, normal ok (m_gt S) K A -> normal ok (m_gt S) K B -> B <> [] ->
  exists P, p_mul S K no_compress A B = Ok P /\ terminates_with (poly_div S K P B) A.
Proof.
  intros M S ok sm C K HS HD HQ A B NA NB Bne.
  destruct (C12_multiplication M S ok sm C K HS HD A B NA NB) as (P & EP & NP & RP).
  exists P. split; [exact EP|]. apply (C16_exact_division M S ok sm C K HS HD HQ P B NP NB Bne A NA RP).
Qed.
Print Assumptions C16_product_then_quotient.
(** Division by the zero polynomial throws; division always terminates, whatever the dividend. *)
Theorem C16_division_by_zero : forall M (S : monos M) C (K : coefs C) F fuel,
  poly_div S K F [] fuel = Throw /\ poly_divrem S K F [] fuel = Throw.
Proof. split; reflexivity. Qed.
Print Assumptions C16_division_by_zero.
Theorem C16_terminates : forall M (S : monos M) ok sm C (K : coefs C), lib_monos S ok sm -> ring_ok K ->
  forall F G, normal ok (m_gt S) K F -> normal ok (m_gt S) K G -> G <> [] ->
  exists Q, terminates_with (poly_div S K F G) Q.
Proof.
  intros M S ok sm C K HS HK F G NF NG Gne. apply lib_monos_ok in HS.
  destruct G as [|g gs]; [congruence|]. unfold poly_div, pair_vec_div.
  destruct F as [|f F]; [exists [], 0%nat; reflexivity|].
  destruct gs as [|g2 gs]; [eexists; exists 0%nat; reflexivity|]. cbn [obind].
  destruct (total_heap S ok sm K HS HK (f :: F) (g :: g2 :: gs) g (g2 :: gs) NF NG eq_refl) as (Q & _ & T).
  exists Q. exact T.
Qed.
Print Assumptions C16_terminates.
Example C16_example :
  poly_div (lexS vless) Zc [(Mono [(1%N, 2%Z)] 2, 3%Z); (mono_var 1, 4%Z); (mono1, (-4)%Z)] ex_q 20 = Ok ex_p.
Proof. reflexivity. Qed.
(** When G does not divide F the quotient need not even be in normal form: x / (2x) over the integers
    is the one-term vector 0*1. *)
Theorem C16_inexact_quotient_normal_refuted :
  exists F G : list (mono * Z), normal (mok vless) (m_gt (lexS vless)) Zc F /\ normal (mok vless) (m_gt (lexS vless)) Zc G /\
   exists Q, terminates_with (poly_div (lexS vless) Zc F G) Q /\ ~ normal (mok vless) (m_gt (lexS vless)) Zc Q.
Proof.
  exists [(mono_var 1, 1%Z)], [(mono_var 1, 2%Z)]. split; [repeat constructor; discriminate|].
  split; [repeat constructor; discriminate|]. exists [(mono1, 0%Z)]. split; [exists 0%nat; reflexivity|].
  intros (_ & _ & H). inversion H as [|? ? H1 _]. apply H1. reflexivity.
Qed.
Print Assumptions C16_inexact_quotient_normal_refuted.

(** C17.  Over a field: F = Q*G + R, no monomial of R is a multiple of the leading monomial of G, both
    results are in normal form, and these conditions determine them. *)
Theorem C17_division : forall M (S : monos M) ok sm C (K : coefs C), lib_monos S ok sm -> field_ok K ->
  forall F g G, normal ok (m_gt S) K F -> normal ok (m_gt S) K (g :: G) ->
  exists Q R, terminates_with (poly_divrem S K F (g :: G)) (Q, R) /\
    normal ok (m_gt S) K Q /\ normal ok (m_gt S) K R /\
    Forall (fun t => ~ mdivides (sm (fst g)) (sm (fst t))) R /\
    (forall m, coef K (graw sm F) m = coef K (radd (rmul K (graw sm Q) (graw sm (g :: G))) (graw sm R)) m).
Proof.
  intros M S ok sm C K HS HF F g G NF NG. apply lib_monos_ok in HS.
  destruct (p_div_rem_ok S ok sm K HS (domain_ring K (field_domain K HF)) HF (fun _ _ => Ok None) F (g :: G) g G I NF NG eq_refl)
    as (Q & R & (A1 & A2 & A3 & A4) & T).
  exists Q, R. repeat split; try apply A1; try apply A2; try assumption.
Qed.
Print Assumptions C17_division.
Theorem C17_unique : forall M (S : monos M) ok sm C (K : coefs C), lib_monos S ok sm -> domain_ok K ->
  forall F g G Q R Q' R', normal ok (m_gt S) K (g :: G) ->
  normal ok (m_gt S) K Q -> normal ok (m_gt S) K R -> normal ok (m_gt S) K Q' -> normal ok (m_gt S) K R' ->
  Forall (fun t => ~ mdivides (sm (fst g)) (sm (fst t))) R ->
  Forall (fun t => ~ mdivides (sm (fst g)) (sm (fst t))) R' ->
  req K (graw sm F) (radd (rmul K (graw sm Q) (graw sm (g :: G))) (graw sm R)) ->
  req K (graw sm F) (radd (rmul K (graw sm Q') (graw sm (g :: G))) (graw sm R')) ->
  Q = Q' /\ R = R'.
Proof.
  intros M S ok sm C K HS HD F g G Q R Q' R' NG NQ NR NQ' NR' IR IR' E E'. apply lib_monos_ok in HS.
  apply (divrem_unique S ok sm K HS (domain_ring K HD) HD F (g :: G) Q R Q' R' g G NG eq_refl); repeat split; try assumption;
    solve [apply NQ|apply NR|apply NQ'|apply NR'].
Qed.
Print Assumptions C17_unique.
(** x^2 + 1 divided by 2x + 1 over Z/7: quotient 4x + 5, remainder 3. *)
Definition z7 : modulus 7.
Proof. split; [discriminate|reflexivity]. Defined.
Example C17_example :
  let c := zpc_of 7 z7 in
  match poly_divrem uniS (Zpc 7 z7) [(2%Z, c 1%Z); (0%Z, c 1%Z)] [(1%Z, c 2%Z); (0%Z, c 1%Z)] 20 with
  | Ok (Q, R) => map (fun t => (fst t, proj1_sig (snd t))) Q = [(1%Z, 4%Z); (0%Z, 5%Z)] /\
                 map (fun t => (fst t, proj1_sig (snd t))) R = [(0%Z, 3%Z)]
  | _ => False
  end.
Proof. vm_compute. split; reflexivity. Qed.

(** C18.  Over the integers the identity F = Q*G + R is false: the upolynomial (3x) divided by (2x+1)
    gives Q = 1 and R = 3x - 1, and (3x) divided by (2x) gives Q = 1 and R = 1. *)
Theorem C18_division_refuted : exists F G Q R : list (Z * Z),
  normal uok (m_gt uniS) Zc F /\ normal uok (m_gt uniS) Zc G /\ G <> [] /\
  terminates_with (poly_divrem uniS Zc F G) (Q, R) /\
  ~ req Zc (graw usm F) (radd (rmul Zc (graw usm Q) (graw usm G)) (graw usm R)).
Proof.
  exists [(1, 3)]%Z, [(1, 2); (0, 1)]%Z, [(0, 1)]%Z, [(1, 3); (0, -1)]%Z.
  split; [repeat constructor; discriminate|]. split; [repeat constructor; discriminate|]. split; [discriminate|].
  split.
  - exists 3%nat. intros [|[|[|fuel]]] H; try lia. destruct fuel; reflexivity.
  - intros H. specialize (H [(0%N, 1%N)]). vm_compute in H. discriminate.
Qed.
Print Assumptions C18_division_refuted.
Theorem C18_single_term_divisor_refuted : exists F G Q R : list (mono * Z),
  normal (mok vless) (m_gt (lexS vless)) Zc F /\ normal (mok vless) (m_gt (lexS vless)) Zc G /\ G <> [] /\
  terminates_with (poly_divrem (lexS vless) Zc F G) (Q, R) /\
  ~ req Zc (graw sm F) (radd (rmul Zc (graw sm Q) (graw sm G)) (graw sm R)).
Proof.
  exists [(mono_var 1, 3%Z)], [(mono_var 1, 2%Z)], [(mono1, 1%Z)], [(mono1, 1%Z)].
  split; [repeat constructor; discriminate|]. split; [repeat constructor; discriminate|]. split; [discriminate|].
  split; [exists 0%nat; reflexivity|]. intros H. specialize (H [(1%N, 1%N)]). vm_compute in H. discriminate.
Qed.
Print Assumptions C18_single_term_divisor_refuted.
(** What does hold over the integers (and any domain with quotient and remainder), and is what the
    library's gcd relies on: the remainder is empty exactly when G divides F, and then the quotient is
    the exact one. *)
Theorem C18_divisibility_test_partial : forall M (S : monos M) ok sm C (K : coefs C),
  lib_monos S ok sm -> domain_ok K -> quorem_ok K ->
  forall F G, normal ok (m_gt S) K F -> normal ok (m_gt S) K G -> G <> [] ->
  exists Q R, terminates_with (poly_divrem S K F G) (Q, R) /\
   (R = [] -> normal ok (m_gt S) K Q /\ req K (graw sm F) (rmul K (graw sm Q) (graw sm G))) /\
   (forall H, normal ok (m_gt S) K H -> req K (graw sm F) (rmul K (graw sm H) (graw sm G)) -> Q = H /\ R = []).
Proof.
  intros M S ok sm C K HS HD HQ F G NF NG Gne. apply lib_monos_ok in HS.
  destruct (p_div_test S ok sm K HS (domain_ring K HD) HD HQ (fun _ _ => Ok None) F G I NF NG Gne) as (Q & R & (A1 & A2) & T).
  exists Q, R. auto.
Qed.
Print Assumptions C18_divisibility_test_partial.
