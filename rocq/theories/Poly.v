(** * Polynomial operations over a monomial structure: instances of the generic vector algorithms
      as basic_polynomial.hh calls them. *)
From Verif Require Import Prelude Coef OrderSpec PairVec Heap MonoStruct.

Section Poly.
Context {M C : Type} (S : monos M) (K : coefs C).

(** basic_polynomial.hh 224-268: operator+, operator-, unary operator-. *)
Definition p_add (p q : list (M * C)) : list (M * C) := pv_add (m_gt S) (m_eq S) K p q.
Definition p_sub (p q : list (M * C)) : list (M * C) := pv_sub (m_gt S) (m_eq S) K p q.
Definition p_neg (p : list (M * C)) : list (M * C) := pv_negate K p.
(** basic_polynomial.hh 270-285: operator*; [compress] is the hook
    [__pair_vec_multiplies_compression] (basic.hh 417-427, monomial.hh 220-308). *)
Definition p_mul (compress : list (M * C) -> list (M * C) -> outcome (option (list (M * C))))
  (p q : list (M * C)) : outcome (list (M * C)) :=
  pair_vec_multiplies (m_gt S) (m_eq S) (m_mul S) K compress p q.

(** The default hook (basic.hh 417-427) returns false. *)
Definition no_compress (v1 v2 : list (M * C)) : outcome (option (list (M * C))) := Ok None.

(** basic.hh 855-902 [pair_vec_power], the loop of lines 876-900: [b] says that init_v has not been
    assigned yet; [i>>=1] on a negative number rounds towards minus infinity and [i%2] keeps the sign. *)
Variable compress : list (M * C) -> list (M * C) -> outcome (option (list (M * C))).
Fixpoint power_loop (fuel : nat) (init p : list (M * C)) (b : bool) (i : Z)
  : outcome (list (M * C)) :=
  match fuel with
  | O => OutOfFuel
  | Datatypes.S f =>
      if (i =? 0)%Z then Ok init
      else
        '(init', b') <-
          (if negb (Z.rem i 2 =? 0)%Z then
             if b then Ok (p, false)
             else (t <- p_mul compress init p ;; Ok (t, false))
           else Ok (init, b)) ;;
        let i' := Z.shiftr i 1 in
        p' <- (if negb (i' =? 0)%Z then p_mul compress p p else Ok p) ;;
        power_loop f init' p' b' i'
  end.
Definition pair_vec_power (fuel : nat) (init v : list (M * C)) (i : Z) : outcome (list (M * C)) :=
  if (i =? 0)%Z then Ok init
  else if (i =? 1)%Z then Ok v
  else power_loop fuel init v true i.

(** polynomial_.hh 38-70 [pow(const basic_polynomial&, int64_t)].  [pow0] is the result of the branch for the
    empty polynomial with exponent 0 (lines 42-50): [Some one] when the coefficient type has a
    context-free one, [None] when the code runs into [assert(false)].  A failing [assert] (line 41 and
    line 48) is [Throw]. *)
Definition p_pow (fuel : nat) (pow0 : option C) (p : list (M * C)) (i : Z) : outcome (list (M * C)) :=
  if (i <? 0)%Z then Throw else
  match p with
  | [] => if (i =? 0)%Z then (match pow0 with Some one => Ok [(m_one S, one)] | None => Throw end) else Ok []
  | _ =>
      let o := [(m_one S, c1 K)] in
      if (i =? 0)%Z then Ok o
      else if (i =? 1)%Z then Ok p
      else if (i =? 2)%Z then p_mul compress p p
      else if (i =? 3)%Z then (t <- p_mul compress p p ;; p_mul compress t p)
      else pair_vec_power fuel o p i
  end.
End Poly.
