(** * C40: dense univariate polynomials over Z/p.

    [dval p Hp l] (DensePoly.v) is the polynomial l_0 + l_1 X + l_2 X^2 + ... over Z/p; the theorems say
    that the result of each operation is a well-formed coefficient vector whose value is the mathematical
    result.  [small]: fewer than 2^62 coefficients, which every std::vector<uint64_t> satisfies. *)
From Coq Require Import Ring_theory Ring Setoid Morphisms Znumtheory.
From Verif Require Import Prelude Coef Spec SpecProofs NumSpec Zp ZpProofs OrderSpec MonoStruct MonoStructProofs PairVecProofs GcdDom GcdPoly
  Dense DenseWord DensePoly DenseMul DenseDiv DenseGcd DenseFuel DenseSparse Props_Div.
Local Open Scope Z_scope.

(** A well-formed value: residues, and no leading zero. *)
Definition dense (p : Z) (l : dpoly) : Prop := Forall (residue p) l /\ (l <> [] -> last l 0 <> 0).

Lemma last_nth (l : dpoly) : last l 0 = nth (length l - 1) l 0.
Proof. induction l as [|a [|b l] IH]; [reflexivity|reflexivity|]. change (last (a :: b :: l) 0) with (last (b :: l) 0). rewrite IH. cbn [length]. replace (S (S (length l)) - 1)%nat with (S (S (length l) - 1)) by lia. reflexivity. Qed.
Lemma dense_ok p l : dense p l <-> Forall (residue p) l /\ stripped l.
Proof.
  unfold dense. rewrite last_nth. split; intros [R H]; (split; [exact R|]); [apply stripped_of, H|]. intros N. apply stripped_top; assumption.
Qed.
Lemma dn p l : Forall (residue p) l -> stripped l -> dense p l. Proof. intros. apply dense_ok. auto. Qed.

(** The representation is unique. *)
Theorem C40_canonical : forall p (Hp : modulus p) A B, dense p A -> dense p B -> req (Zpc p Hp) (dval p Hp A) (dval p Hp B) -> A = B.
Proof. intros p Hp A B HA HB E. apply dense_ok in HA as [RA TA], HB as [RB TB]. apply (D_inj p Hp); auto. Qed.

Theorem C40_add : forall p (Hp : modulus p) A B, dense p A -> dense p B ->
  dense p (d_add p A B) /\ req (Zpc p Hp) (dval p Hp (d_add p A B)) (radd (dval p Hp A) (dval p Hp B)).
Proof.
  intros p Hp A B HA HB. apply dense_ok in HA as [RA TA], HB as [RB TB]. destruct (poly_add_ok p Hp A B RA RB) as (R & T & E & _). split; [apply dn; assumption|exact E].
Qed.
Theorem C40_sub : forall p (Hp : modulus p) A B, dense p A -> dense p B ->
  dense p (d_sub p A B) /\ req (Zpc p Hp) (dval p Hp (d_sub p A B)) (radd (dval p Hp A) (ropp (Zpc p Hp) (dval p Hp B))).
Proof.
  intros p Hp A B HA HB. apply dense_ok in HA as [RA TA], HB as [RB TB]. destruct (poly_sub_ok p Hp A B RA RB) as (R & T & E & _). split; [apply dn; assumption|exact E].
Qed.
Theorem C40_scalar_mul : forall p (Hp : modulus p) c A, prime p -> residue p c -> dense p A ->
  dense p (d_scalar_mul p c A) /\ req (Zpc p Hp) (dval p Hp (d_scalar_mul p c A)) (rmul (Zpc p Hp) (rconst (zpc_of p Hp c)) (dval p Hp A)).
Proof.
  intros p Hp c A Pp Hc HA. apply dense_ok in HA as [RA TA]. destruct (scalar_mul_ok p Hp Pp c A Hc RA TA) as (R & T & E & _). split; [apply dn; assumption|exact E].
Qed.
(** classical and Karatsuba multiplication *)
Theorem C40_mul : forall p (Hp : modulus p) A B, dense p A -> dense p B -> small A -> small B ->
  dense p (d_mul p A B) /\ req (Zpc p Hp) (dval p Hp (d_mul p A B)) (rmul (Zpc p Hp) (dval p Hp A) (dval p Hp B)).
Proof.
  intros p Hp A B HA HB SA SB. apply dense_ok in HA as [RA TA], HB as [RB TB]. destruct (d_mul_ok p Hp A B RA RB SA SB) as (R & T & E). split; [apply dn; assumption|exact E].
Qed.
(** division with remainder: always defined for a prime modulus and a non-zero divisor *)
Theorem C40_divrem : forall p (Hp : modulus p) A B, prime p -> dense p A -> dense p B -> B <> [] -> small A ->
  exists Q R, d_divrem p A B = Ok (Q, R) /\ dense p Q /\ dense p R /\ (length R < length B)%nat /\
    req (Zpc p Hp) (dval p Hp A) (radd (rmul (Zpc p Hp) (dval p Hp Q) (dval p Hp B)) (dval p Hp R)).
Proof.
  intros p Hp A B Pp HA HB N SA. apply dense_ok in HA as [RA TA], HB as [RB TB].
  destruct (divrem_ok p Hp Pp A B RA RB TA TB N SA) as (Q & R & E & RQ & RR & TQ & TR & L & EQ & _). exists Q, R.
  split; [exact E|]. split; [apply dn; assumption|]. split; [apply dn; assumption|]. split; assumption.
Qed.
(** quotient and remainder are the only ones *)
Theorem C40_divrem_unique : forall p (Hp : modulus p) A B, prime p -> dense p B -> B <> [] -> forall Q R Q' R',
  dense p Q -> dense p R -> dense p Q' -> dense p R' -> (length R < length B)%nat -> (length R' < length B)%nat ->
  req (Zpc p Hp) (dval p Hp A) (radd (rmul (Zpc p Hp) (dval p Hp Q) (dval p Hp B)) (dval p Hp R)) ->
  req (Zpc p Hp) (dval p Hp A) (radd (rmul (Zpc p Hp) (dval p Hp Q') (dval p Hp B)) (dval p Hp R')) -> Q = Q' /\ R = R'.
Proof.
  intros p Hp A B Pp HB N Q R Q' R' HQ HR HQ' HR' L L' E E'. apply dense_ok in HB as [RB TB], HQ as [RQ TQ], HR as [RR TR], HQ' as [RQ' TQ'], HR' as [RR' TR'].
  exact (divrem_uniq p Hp Pp A B Q R Q' R' RB TB RQ TQ RR TR RQ' TQ' RR' TR' L L' E E').
Qed.
(** gcd (Euclid below 340 coefficients, half-gcd above): terminates with a greatest common divisor, which is
    the zero polynomial only if both operands are *)
Theorem C40_gcd : forall p (Hp : modulus p) A B, prime p -> dense p A -> dense p B -> small A -> small B ->
  exists g, terminates_with (fun fuel => d_gcd p fuel A B) g /\ dense p g /\ (g = [] -> A = [] /\ B = []) /\
    rdivides (Zpc p Hp) (dval p Hp g) (dval p Hp A) /\ rdivides (Zpc p Hp) (dval p Hp g) (dval p Hp B) /\
    forall d, rdivides (Zpc p Hp) d (dval p Hp A) -> rdivides (Zpc p Hp) d (dval p Hp B) -> rdivides (Zpc p Hp) d (dval p Hp g).
Proof.
  intros p Hp A B Pp HA HB SA SB. apply dense_ok in HA, HB.
  destruct (d_gcd_ok p Hp Pp (length A + length B + 2) A B HA HB SA SB ltac:(lia)) as (g & E & Og & (G1 & G2 & G3) & N).
  exists g. split; [exists (length A + length B + 2)%nat; intros fuel L; apply (d_gcd_mono p _ _ _ _ _ L E)|]. split; [apply dense_ok, Og|]. split; [exact N|]. auto.
Qed.
(** conversions: of_up and to_up are inverse to each other on well-formed values and keep the polynomial *)
Theorem C40_convert : forall p (Hp : modulus p),
  (forall F, normal uok (m_gt uniS) (Zpc p Hp) F -> dense p (of_up F) /\ req (Zpc p Hp) (dval p Hp (of_up F)) (graw usm F) /\ to_up p Hp (of_up F) = F) /\
  (forall A, dense p A -> normal uok (m_gt uniS) (Zpc p Hp) (to_up p Hp A) /\ req (Zpc p Hp) (graw usm (to_up p Hp A)) (dval p Hp A) /\ of_up (to_up p Hp A) = A).
Proof.
  intros p Hp. split.
  - intros F N. destruct (of_up_ok p Hp F N) as (R & T & E & _). split; [apply dn; assumption|]. split; [exact E|]. destruct (to_up_ok p Hp (of_up F) R) as [N' E'].
    apply (gnormal_req uniS uok usm (Zpc p Hp) uniS_ok (Zpc_ring p Hp)); auto. rewrite E', E. reflexivity.
  - intros A HA. apply dense_ok in HA as [R T]. destruct (to_up_ok p Hp A R) as [N E]. split; [exact N|]. split; [exact E|].
    destruct (of_up_ok p Hp _ N) as (R' & T' & E' & _). apply (D_inj p Hp); auto. rewrite E', E. reflexivity.
Qed.

(** ** Examples: the hypotheses hold and the operations compute *)
Lemma pr101 : prime 101.
Proof. apply prime_intro; [lia|]. intros n Hn. apply Zgcd_1_rel_prime. assert (H : forallb (fun k => Z.gcd (Z.of_nat k) 101 =? 1) (seq 1 100) = true) by (vm_compute; reflexivity).
  rewrite forallb_forall in H. specialize (H (Z.to_nat n) ltac:(apply in_seq; lia)). rewrite Z2Nat.id in H by lia. apply Z.eqb_eq, H. Qed.
Lemma mod101 : modulus 101. Proof. unfold modulus. lia. Qed.
(** (X+1)(X+2)^3 and (X+1)(X+3)^2 *)
Fixpoint dpow (p : Z) (A : dpoly) (n : nat) : dpoly := match n with O => [1] | S n => d_mul p A (dpow p A n) end.
Definition exA := d_mul 101 [1; 1] (dpow 101 [2; 1] 3).
Definition exB := d_mul 101 [1; 1] (dpow 101 [3; 1] 2).
Example C40_example : dense 101 exA /\ dense 101 exB /\ small exA /\ small exB /\ d_divrem 101 exA exB <> Throw /\ exists c, d_gcd 101 60 exA exB = Ok [c; c] /\ c <> 0.
Proof.
  assert (H : forall l, forallb (fun a => (0 <=? a) && (a <? 101)) l = true -> last l 0 <> 0 -> dense 101 l).
  { intros l F L. split; [|auto]. apply Forall_forall. intros x Hx. rewrite forallb_forall in F. specialize (F x Hx). apply andb_true_iff in F as [F1 F2]. unfold residue. lia. }
  split; [apply H; vm_compute; [reflexivity|discriminate]|]. split; [apply H; vm_compute; [reflexivity|discriminate]|]. split; [vm_compute; reflexivity|]. split; [vm_compute; reflexivity|].
  split; [vm_compute; discriminate|]. destruct (d_gcd 101 60 exA exB) as [g| | |] eqn:E; vm_compute in E; try discriminate. injection E as <-. eexists. split; [reflexivity|discriminate].
Qed.
