(** * Monomial structures: the operations the templates of basic.hh use on the monomial type [T1],
      with the two families of instances of the library. *)
From Verif Require Import Prelude Coef Spec OrderSpec PairVec Mono.
Local Open Scope Z_scope.

(** The operations basic.hh uses on [T1]: [comp], [operator==], [operator*]/[__mono_mult__],
    the default constructor (the monomial 1), [is_divexact]. *)
Record monos (M : Type) := Monos {
  m_gt : M -> M -> bool;
  m_eq : M -> M -> bool;
  m_mul : M -> M -> M;
  m_one : M;
  m_div : M -> M -> bool * M;
}.
Arguments m_gt {M}. Arguments m_eq {M}. Arguments m_mul {M}. Arguments m_one {M}. Arguments m_div {M}.

(** basic_monomial<lex_<var order>>: monomial_order.hh 70-83 *)
Definition lexS (vo : vorder) : monos mono :=
  Monos mono (lex_gt vo) mono_eqb (mono_mul vo) mono1 (is_divexact vo).
(** basic_monomial<grlex_<var order>>: monomial_order.hh 95-112 *)
Definition grlexS (vo : vorder) : monos mono :=
  Monos mono (grlex_gt vo) mono_eqb (mono_mul vo) mono1 (is_divexact vo).
(** umonomial with uless: upolynomial.hh 10-73; the int64_t degree is unbounded here. *)
Definition uniS : monos Z :=
  Monos Z Z.gtb Z.eqb Z.add 0 (fun a b => (0 <=? a - b, a - b)).

(** ** Laws, stated against the specification monomials of Spec.v *)

(** The variables of [m] are among [vs]. *)
Definition msup (vs : list var) (m : smono) : Prop := forall v, exp m v <> 0%N -> In v vs.

Record monos_ok {M} (S : monos M) (ok : M -> Prop) (sm : M -> smono) : Prop := {
  ms_order : order_on ok (m_gt S);
  ms_eq : forall a b, m_eq S a b = true <-> a = b;
  ms_mul_ok : forall a b, ok a -> ok b -> ok (m_mul S a b);
  ms_one_ok : ok (m_one S);
  ms_inj : forall a b, ok a -> ok b -> meq (sm a) (sm b) -> a = b;
  ms_mul : forall a b, ok a -> ok b -> meq (sm (m_mul S a b)) (sm a ++ sm b);
  ms_one : meq (sm (m_one S)) [];
  ms_gt_mul : forall a b c, ok a -> ok b -> ok c ->
      m_gt S a b = true -> m_gt S (m_mul S a c) (m_mul S b c) = true;
  ms_gt_one : forall a, ok a -> a <> m_one S -> m_gt S a (m_one S) = true;
  ms_div : forall a b, ok a -> ok b ->
      (fst (m_div S a b) = true <-> mdivides (sm b) (sm a)) /\
      (fst (m_div S a b) = true -> ok (snd (m_div S a b)) /\ m_mul S (snd (m_div S a b)) b = a);
  ms_wf : forall vs, well_founded (fun a b =>
      ok a /\ ok b /\ msup vs (sm a) /\ msup vs (sm b) /\ m_gt S b a = true);
}.

(** Univariate monomials: well-formed iff the degree is not negative; the single variable is 0. *)
Definition uok (e : Z) : Prop := 0 <= e.
Definition usm (e : Z) : smono := [(0%N, Z.to_N e)].

(** The specification polynomial of a vector of terms. *)
Definition graw {M C} (sm : M -> smono) (p : list (M * C)) : rpoly C :=
  map (fun t => (sm (fst t), snd t)) p.
