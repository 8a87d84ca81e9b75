(** * C27, C29 for univariate polynomials (upolynomial_<ZZ>, upolynomial_<Zp>).

    [graw usm F] is the polynomial a upolynomial denotes: sum of c*x^e, the variable having number 0.
    [ps] is any sequence of primes, [fuel] any bound on the work, [srt] any sort.  Degrees are bounded by
    [maxdeg] = 2^62 - 1, the longest array of coefficients that a vector can hold. *)
From Coq Require Import Ring_theory Ring Setoid Morphisms Znumtheory.
From Verif Require Import Prelude Coef Spec SpecProofs SpecOps SpecOpsProofs GcdDom GcdPoly GcdMath OrderSpec PairVec PairVecProofs
  Mono MonoStruct MonoStructProofs Heap Poly Div PolyOps PolyOpsGen Zp NumSpec ZpProofs Gcd GcdProofs UGcd UGcdBase UGcdProofs UGcdMod UGcdCrt UGcdHeu UGcdMain
  SortProofs Props_Div Props_Gcd.
Local Open Scope Z_scope.
Local Notation unormal K := (normal uok (m_gt uniS) K).

(** gcd over the integers: whatever path is taken (single terms, GCDHEU, images modulo primes), the result is a
    greatest common divisor. *)
Theorem C27_gcd_univariate : forall srt ps fuel G F R, (forall i, prime (pm (ps i))) ->
  unormal Zc F -> unormal Zc G -> udeg F < maxdeg -> udeg G < maxdeg ->
  upoly_gcd srt ps fuel G F = Ok R ->
  unormal Zc R /\ greatest_common_divisor (graw usm F) (graw usm G) (graw usm R).
Proof. exact upoly_gcd_ok. Qed.

(** gcd modulo a prime: it terminates, without exception or undefined behaviour, with the monic greatest common
    divisor (the zero polynomial if both are zero). *)
Theorem C27_gcd_univariate_mod_p : forall p (Hp : modulus p), prime p -> forall F G,
  let K := Zpc p Hp in
  unormal K F -> unormal K G -> udeg F < maxdeg -> udeg G < maxdeg ->
  exists R, terminates_with (fun fuel => uzp_gcd p Hp fuel F G) R /\ unormal K R /\
    (F = [] -> G = [] -> R = []) /\ (F <> [] \/ G <> [] -> exists m l, R = (m, c1 K) :: l) /\
    rdivides K (graw usm R) (graw usm F) /\ rdivides K (graw usm R) (graw usm G) /\
    forall d, rdivides K d (graw usm F) -> rdivides K d (graw usm G) -> rdivides K d (graw usm R).
Proof.
  intros p Hp Pr F G K NF NG SF SG. destruct (uzp_gcd_runs p Hp Pr F G NF NG SF SG) as (n & R & H). exists R. split; [exists n; exact H|].
  destruct (uzp_gcd_ok p Hp Pr n F G R NF NG SF SG (H n (le_n n))) as (A & (B1 & B2 & B3) & C & D). auto 8.
Qed.

(** cont(F): an integer that divides every coefficient, and that every such integer divides. *)
Theorem C29_content_univariate : forall F, unormal Zc F -> F <> [] ->
  ucont F <> 0 /\ (forall t, In t F -> (ucont F | snd t)) /\ (forall d, (forall t, In t F -> (d | snd t)) -> (d | ucont F)) /\
  content 0%N (graw usm F) (rconst (ucont F)).
Proof.
  intros F N Ne. split; [apply (ucont_nz F N Ne)|]. destruct (ucont_spec F Ne) as [A B]. split; [exact A|]. split; [exact B|].
  apply content_iff, (ucont_ok F N Ne).
Qed.
Print Assumptions C27_gcd_univariate.
Print Assumptions C27_gcd_univariate_mod_p.
Print Assumptions C29_content_univariate.

(** Concrete cases: 6(x+1)(x^2+2) and 4(x+1)(x-3) by GCDHEU; (x+1)(2^70x+3) and (x+1)(x+2^70) through the primes. *)
Definition uF : upz := [(3, 6); (2, 6); (1, 12); (0, 12)].
Definition uG : upz := [(2, 4); (1, -8); (0, -12)].
Definition uF2 : upz := [(2, 2 ^ 70); (1, 2 ^ 70 + 3); (0, 3)].
Definition uG2 : upz := [(2, 1); (1, 2 ^ 70 + 1); (0, 2 ^ 70)].
Lemma uex_normal : unormal Zc uF /\ unormal Zc uG /\ unormal Zc uF2 /\ unormal Zc uG2.
Proof. repeat split; repeat constructor; discriminate. Qed.
Example C27_univariate_example :
  upoly_gcd (fun l => l) ex_ps 20 uG uF = Ok [(1, 2); (0, 2)] /\
  upoly_gcd (fun l => l) ex_ps 20 uG2 uF2 = Ok [(1, 1); (0, 1)] /\ ucont uF = 6 /\
  gcdheu (fun l => l) 20 uF2 uG2 = Ok None /\
  greatest_common_divisor (graw usm uF2) (graw usm uG2) (graw usm [(1, 1); (0, 1)]).
Proof.
  assert (E : upoly_gcd (fun l => l) ex_ps 20 uG2 uF2 = Ok [(1, 1); (0, 1)]) by (vm_compute; reflexivity).
  split; [vm_compute; reflexivity|]. split; [exact E|]. split; [reflexivity|]. split; [vm_compute; reflexivity|].
  destruct uex_normal as (_ & _ & A & B). apply (C27_gcd_univariate _ _ _ _ _ _ ex_ps_prime A B eq_refl eq_refl E).
Qed.
Example C27_univariate_mod_p_example :
  let F := p_mod (Zpc 101 m101) (zpc_of 101 m101) uF in let G := p_mod (Zpc 101 m101) (zpc_of 101 m101) uG in
  unormal (Zpc 101 m101) F /\ unormal (Zpc 101 m101) G /\
  exists R, uzp_gcd 101 m101 20 F G = Ok R /\ map (fun t => (fst t, proj1_sig (snd t))) R = [(1, 1); (0, 1)].
Proof.
  intros F G. assert (P : prime 101) by exact (ex_ps_prime 0). destruct uex_normal as (A & B & _).
  split; [apply (upmod_ok 101 m101 P uF A)|]. split; [apply (upmod_ok 101 m101 P uG B)|].
  destruct (uzp_gcd 101 m101 20 F G) as [R| | |] eqn:E; vm_compute in E; try discriminate. injection E as <-. eexists. split; [reflexivity|]. vm_compute. reflexivity.
Qed.
