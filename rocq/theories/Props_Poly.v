(** * C09-C12, C15: polynomial addition, normal form, multiplication, powers.
    A polynomial value is a vector of (monomial, coefficient); [graw sm p] is the mathematical
    polynomial it denotes (Spec.v), [normal ok gt K p] says it is in normal form (OrderSpec.v).
    [S] ranges over all monomial types/orders of the library (Library.v). *)
From Verif Require Import Prelude Coef Spec SpecProofs OrderSpec PairVec PairVecProofs Mono MonoProofs Heap
  MonoStruct MonoStructProofs Library LibraryProofs Poly PolyMulProofs PolyCmpProofs.

Theorem C09_add : forall M (S : monos M) ok sm C (K : coefs C), lib_monos S ok sm -> ring_ok K ->
  forall p q, normal ok (m_gt S) K p -> normal ok (m_gt S) K q ->
  normal ok (m_gt S) K (p_add S K p q) /\
  forall m, coef K (graw sm (p_add S K p q)) m = cadd K (coef K (graw sm p) m) (coef K (graw sm q) m).
Proof.
  intros M S ok sm C K HS HK p q Hp Hq. apply lib_monos_ok in HS.
  split; [apply (p_add_normal S ok sm K HS HK); assumption|].
  intros m. rewrite (p_add_req S ok sm K HS HK p q m). apply (coef_app K HK).
Qed.
Print Assumptions C09_add.
Theorem C09_sub : forall M (S : monos M) ok sm C (K : coefs C), lib_monos S ok sm -> ring_ok K ->
  forall p q, normal ok (m_gt S) K p -> normal ok (m_gt S) K q ->
  normal ok (m_gt S) K (p_sub S K p q) /\
  forall m, coef K (graw sm (p_sub S K p q)) m = csub K (coef K (graw sm p) m) (coef K (graw sm q) m).
Proof.
  intros M S ok sm C K HS HK p q Hp Hq. apply lib_monos_ok in HS.
  split; [apply (p_sub_normal S ok sm K HS HK); assumption|].
  intros m. rewrite (p_sub_req S ok sm K HS HK p q m). unfold rsub, radd.
  rewrite (coef_app K HK), (coef_opp K HK). symmetry. apply (Ring_theory.Rsub_def (ring_laws K HK)).
Qed.
Print Assumptions C09_sub.
Theorem C09_neg : forall M (S : monos M) ok sm C (K : coefs C), lib_monos S ok sm -> ring_ok K ->
  forall p, normal ok (m_gt S) K p ->
  normal ok (m_gt S) K (p_neg K p) /\
  forall m, coef K (graw sm (p_neg K p)) m = copp K (coef K (graw sm p) m).
Proof.
  intros M S ok sm C K HS HK p Hp. apply lib_monos_ok in HS.
  split; [apply (p_neg_normal S ok K HK); assumption|].
  intros m. rewrite (p_neg_req sm K p m). apply (coef_opp K HK).
Qed.
Print Assumptions C09_neg.

(** Non-vacuity: x + 2 and 3x - 2 are in normal form (lex, integer coefficients); the constants cancel. *)
Definition ex_p : list (mono * Z) := [(mono_var 1, 1%Z); (mono1, 2%Z)].
Definition ex_q : list (mono * Z) := [(mono_var 1, 3%Z); (mono1, (-2)%Z)].
Example ex_p_normal : normal (mok vless) (m_gt (lexS vless)) Zc ex_p.
Proof.
  split; [|split].
  - repeat constructor.
  - repeat constructor.
  - repeat constructor; discriminate.
Qed.
Example ex_q_normal : normal (mok vless) (m_gt (lexS vless)) Zc ex_q.
Proof.
  split; [|split].
  - repeat constructor.
  - repeat constructor.
  - repeat constructor; discriminate.
Qed.
Example C09_example : p_add (lexS vless) Zc ex_p ex_q = [(mono_var 1, 4%Z)].
Proof. reflexivity. Qed.

(** C10.  operator== (pair_vec_equal_to) decides equality of the mathematical polynomials. *)
Theorem C10_equality_decides : forall M (S : monos M) ok sm C (K : coefs C), lib_monos S ok sm -> ring_ok K ->
  forall p q, normal ok (m_gt S) K p -> normal ok (m_gt S) K q ->
  (pv_equal_to (m_eq S) K p q = true <-> forall m, coef K (graw sm p) m = coef K (graw sm q) m).
Proof.
  intros M S ok sm C K HS HK p q Hp Hq. apply lib_monos_ok in HS.
  rewrite (pv_equal_to_spec (m_eq S) K (ms_eq S ok sm HS) HK). symmetry.
  apply (gnormal_req S ok sm K HS HK p q Hp Hq).
Qed.
Print Assumptions C10_equality_decides.
Theorem C10_zero_is_empty : forall M (S : monos M) ok sm C (K : coefs C), lib_monos S ok sm -> ring_ok K ->
  forall p, normal ok (m_gt S) K p -> (p = [] <-> forall m, coef K (graw sm p) m = c0 K).
Proof.
  intros M S ok sm C K HS HK p Hp. apply lib_monos_ok in HS. split; [intros ->; reflexivity|].
  intros H. apply (graw_nil_req S ok sm K HS HK p Hp). exact H.
Qed.
Print Assumptions C10_zero_is_empty.
(** operator> (pair_vec_comp) is a strict total order consistent with ==. *)
Theorem C10_greater_total_order : forall M (S : monos M) ok sm C (K : coefs C) gtc,
  lib_monos S ok sm -> ring_ok K -> order_on (fun _ => True) gtc ->
  order_on (normal ok (m_gt S) K) (pv_comp (m_gt S) (m_eq S) K gtc).
Proof.
  intros M S ok sm C K gtc HS HK HB. apply lib_monos_ok in HS.
  destruct (pv_comp_order ok (m_gt S) (m_eq S) K gtc (ms_order S ok sm HS) (ms_eq S ok sm HS) HK HB) as [I T O].
  split.
  - intros a Ha. apply I, Ha.
  - intros a b c Ha Hb Hc. apply T; [apply Ha|apply Hb|apply Hc].
  - intros a b Ha Hb. apply O; [apply Ha|apply Hb].
Qed.
Print Assumptions C10_greater_total_order.
Example C10_example : pv_equal_to (m_eq (lexS vless)) Zc ex_p ex_q = false /\ pv_equal_to (m_eq (lexS vless)) Zc ex_p ex_p = true.
Proof. split; reflexivity. Qed.

(** C11.  normalization(): for every term list and every behaviour of std::sort, the result denotes
    the same polynomial and its monomials are well formed and strictly decreasing ... *)
Theorem C11_normalization_partial : forall M (S : monos M) ok sm C (K : coefs C) srt,
  lib_monos S ok sm -> ring_ok K -> sort_ok ok (m_gt S) srt ->
  forall l, all_ok ok l ->
  let r := pv_normalization (m_gt S) (m_eq S) K srt l in
  all_ok ok r /\ desc (m_gt S) r /\ (forall m, coef K (graw sm r) m = coef K (graw sm l) m) /\
  ((forall a b, In (a, b) l -> b <> c0 K -> coef K (graw sm l) (sm a) <> c0 K) ->
     normal ok (m_gt S) K r).
Proof.
  intros M S ok sm C K srt HS HK Hs l Hl r. apply lib_monos_ok in HS.
  destruct (normalization_sound ok (m_gt S) (m_eq S) K (ms_order S ok sm HS) (ms_eq S ok sm HS) HK srt l Hs Hl)
    as (H1 & H2 & H3).
  split; [exact H1|]. split; [exact H2|]. split.
  - apply (csum_graw sm K _ _ H3).
  - intros H. apply (normalization_normal ok (m_gt S) (m_eq S) K (ms_order S ok sm HS) (ms_eq S ok sm HS) HK srt l Hs Hl).
    intros a b Hin Hb. rewrite (csum_gcoef S ok sm K HS l a Hl); [apply (H a b Hin Hb)|].
    unfold all_ok in Hl. rewrite Forall_forall in Hl. apply (Hl _ Hin).
Qed.
Print Assumptions C11_normalization_partial.
(** ... but the full claim is false: terms that cancel leave a zero coefficient behind.
    The input is x - x; the result is the one-term vector 0*x. *)
Theorem C11_normal_form_refuted : exists l : list (mono * Z), all_ok (mok vless) l /\
  forall srt, ~ normal (mok vless) (m_gt (lexS vless)) Zc
     (pv_normalization (m_gt (lexS vless)) (m_eq (lexS vless)) Zc srt l).
Proof.
  exists [(mono_var 1, 1%Z); (mono_var 1, (-1)%Z)]. split; [repeat constructor|].
  intros srt (_ & _ & H). vm_compute in H. inversion H as [|? ? H1 _]. apply H1. reflexivity.
Qed.
Print Assumptions C11_normal_form_refuted.
(** A polynomial already in normal form is left alone. *)
Theorem C11_normal_form_fixed : forall M (S : monos M) ok sm C (K : coefs C) srt,
  lib_monos S ok sm -> ring_ok K ->
  forall l, normal ok (m_gt S) K l -> pv_normalization (m_gt S) (m_eq S) K srt l = l.
Proof.
  intros M S ok sm C K srt HS HK l Hl. apply lib_monos_ok in HS.
  apply (normalization_id ok (m_gt S) (m_eq S) K (ms_order S ok sm HS) (ms_eq S ok sm HS) HK srt l Hl).
Qed.
Print Assumptions C11_normal_form_fixed.
Example C11_example :
  pv_normalization (m_gt (lexS vless)) (m_eq (lexS vless)) Zc (isort (m_gt (lexS vless)))
    [(mono1, 2%Z); (mono_var 1, 3%Z); (mono_var 2, 0%Z); (mono1, 5%Z)] = [(mono_var 1, 3%Z); (mono1, 7%Z)].
Proof. reflexivity. Qed.

(** C12.  operator* without the packed-monomial shortcut: always succeeds (in particular no index is
    out of range, no null pointer is dereferenced and the loops terminate), the result is in normal
    form and denotes the product. *)
Theorem C12_multiplication : forall M (S : monos M) ok sm C (K : coefs C), lib_monos S ok sm -> domain_ok K ->
  forall p q, normal ok (m_gt S) K p -> normal ok (m_gt S) K q ->
  exists r, p_mul S K no_compress p q = Ok r /\ normal ok (m_gt S) K r /\
    req K (graw sm r) (rmul K (graw sm p) (graw sm q)).
Proof.
  intros M S ok sm C K HS HD p q Hp Hq. apply lib_monos_ok in HS.
  apply (p_mul_ok S ok sm K HS (domain_ring K HD) HD); [split; exact I|exact Hp|exact Hq].
Qed.
Print Assumptions C12_multiplication.
(** The heap loop itself needs only a commutative ring. *)
Theorem C12_heap_loop : forall M (S : monos M) ok sm C (K : coefs C), lib_monos S ok sm -> ring_ok K ->
  forall p q, normal ok (m_gt S) K p -> normal ok (m_gt S) K q -> p <> [] -> q <> [] ->
  exists r, heap_mul (m_gt S) (m_eq S) (m_mul S) K p q = Ok r /\ normal ok (m_gt S) K r /\
    req K (graw sm r) (rmul K (graw sm p) (graw sm q)).
Proof.
  intros M S ok sm C K HS HK p q Hp Hq Np Nq. apply lib_monos_ok in HS.
  apply (mul_heap_ok S ok sm K HS HK p q Hp Hq); [destruct p|destruct q]; simpl; try congruence; lia.
Qed.
Print Assumptions C12_heap_loop.
Example C12_example : p_mul (lexS vless) Zc no_compress ex_p ex_q
  = Ok [(Mono [(1%N, 2%Z)] 2, 3%Z); (mono_var 1, 4%Z); (mono1, (-4)%Z)].
Proof. reflexivity. Qed.

(** C15.  pow(p, n) for every 0 <= n < 2^63 (without the packed-monomial shortcut). *)
Theorem C15_power : forall M (S : monos M) ok sm C (K : coefs C), lib_monos S ok sm -> domain_ok K ->
  forall p n, normal ok (m_gt S) K p -> (0 <= n < 2 ^ 63)%Z ->
  exists r, p_pow S K no_compress 64 (Some (c1 K)) p n = Ok r /\ normal ok (m_gt S) K r /\
    req K (graw sm r) (rpow K (graw sm p) (Z.to_nat n)).
Proof.
  intros M S ok sm C K HS HD p n Hp Hn. apply lib_monos_ok in HS.
  apply (p_pow_ok S ok sm K HS (domain_ring K HD) HD); [intros v1 v2 _ _; exact I|exact Hp|exact Hn].
Qed.
Print Assumptions C15_power.
Example C15_example : p_pow (lexS vless) Zc no_compress 64 (Some 1%Z) ex_p 4
  = Ok [(Mono [(1%N, 4%Z)] 4, 1%Z); (Mono [(1%N, 3%Z)] 3, 8%Z); (Mono [(1%N, 2%Z)] 2, 24%Z);
        (mono_var 1, 32%Z); (mono1, 16%Z)].
Proof. reflexivity. Qed.
