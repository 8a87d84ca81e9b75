(** * Model of squarefreebasis for integer polynomials (polynomial_gcd.hh 159-243).

    The vectors lst and I of the code always have the same length: they are one list of pairs (polynomial, list of
    (index of the input polynomial, multiplicity)); the same for lst_ and I_.  The numbers in I (uint64_t) are natural
    numbers.  Every gcd call gets its own path of random draws. *)
From Verif Require Import Prelude Coef Spec OrderSpec PairVec Mono MonoStruct Heap Poly Div PolyOps Groebner Zp NumSpec ZpProofs Gcd Sqf.
Local Open Scope Z_scope.

Definition occurrences := list (nat * nat).
Definition basis := list (poly Z * occurrences).

Section SqfBasis.
Context (vo : vorder).
Notation poly := (poly Z).
Variable msrt : list (var * Z) -> list (var * Z).
Variable srt : forall C : Type, Mono.poly C -> Mono.poly C.
Variable mcomp qcomp : poly -> poly -> outcome (option poly).
Variable rcomp : poly -> poly -> outcome (option (poly * poly)).
Variable zcomp : forall p (Hp : modulus p), Mono.poly (zpc p) -> Mono.poly (zpc p) -> outcome (option (Mono.poly (zpc p) * Mono.poly (zpc p))).
Variable ps : nat -> pmod.
Variable rnd : path -> nat -> Z.
Notation gcd := (poly_gcd vo msrt srt mcomp qcomp rcomp zcomp ps rnd).
Notation sqf := (squarefreefactorize vo msrt srt mcomp qcomp rcomp zcomp ps rnd).
Notation div := (pdiv vo qcomp).
Notation eqp := (pv_equal_to mono_eqb Zc).

(** 175-193: the loop over j; [i] and [e] are the index of the input and the multiplicity of the factor [tmp].  The
    result is (lst, what is appended to lst_, tmp). *)
Fixpoint split_factor (fuel : nat) (pa : path) (i e : nat) (lst : basis) (tmp : poly) : outcome (basis * basis * poly) :=
  match lst with
  | [] => Ok ([], [], tmp)
  | (a, ix) :: rest =>
      F1 <- gcd fuel (length rest :: pa) a tmp ;;
      if is_number F1 then
        ('(l, n, t) <- split_factor fuel pa i e rest tmp ;; Ok ((a, ix) :: l, n, t))
      else
        tmp <- div fuel tmp F1 ;;
        '(a', ix', new) <- (if negb (eqp F1 a) then (a' <- div fuel a F1 ;; Ok (a', ix, [(F1, ix ++ [(i, e)])]))
                           else Ok (a, ix ++ [(i, e)], [])) ;;
        if is_number tmp then Ok ((a', ix') :: rest, new, tmp)
        else ('(l, n, t) <- split_factor fuel pa i e rest tmp ;; Ok ((a', ix') :: l, new ++ n, t))
  end.
(** 172-199: the loop over the squarefree factors of F[i] (the first one, the constant, is skipped) *)
Fixpoint basis_factors (fuel : nat) (pa : path) (i : nat) (fs : list (poly * nat)) (lst lst_ : basis) : outcome (basis * basis) :=
  match fs with
  | [] => Ok (lst, lst_)
  | (t, e) :: fs' =>
      '(l, n, tmp) <- split_factor fuel (length fs' :: pa) i e lst t ;;
      basis_factors fuel pa i fs' l (lst_ ++ n ++ (if is_number tmp then [] else [(tmp, [(i, e)])]))
  end.
(** 165-208: the loop over the input *)
Fixpoint basis_loop (fuel : nat) (pa : path) (i : nat) (F : list poly) (lst : basis) : outcome basis :=
  match F with
  | [] => Ok lst
  | f :: F' =>
      l_ <- sqf fuel (0%nat :: i :: pa) f ;;
      match l_ with
      | [] => basis_loop fuel pa (S i) F' lst
      | _ :: fs =>
          '(l, n) <- basis_factors fuel (1%nat :: i :: pa) i fs lst [] ;;
          basis_loop fuel pa (S i) F' (l ++ n)
      end
  end.
Definition squarefreebasis (fuel : nat) (pa : path) (F : list poly) : outcome basis := basis_loop fuel pa 0 F [].
End SqfBasis.

(** 213-243: other monomial orders *)
Section Wrap.
Context (vo2 : vorder) (gt2 : mono -> mono -> bool).
Variable msrt : list (var * Z) -> list (var * Z).
Variable srt : forall C : Type, Mono.poly C -> Mono.poly C.
Variable mcomp qcomp : poly Z -> poly Z -> outcome (option (poly Z)).
Variable rcomp : poly Z -> poly Z -> outcome (option (poly Z * poly Z)).
Variable zcomp : forall p (Hp : modulus p), Mono.poly (zpc p) -> Mono.poly (zpc p) -> outcome (option (Mono.poly (zpc p) * Mono.poly (zpc p))).
Variable ps : nat -> pmod.
Variable rnd : path -> nat -> Z.
Variable msrt2 : list (var * Z) -> list (var * Z).
Variable srt2 : poly Z -> poly Z.
Definition squarefreebasis_any (fuel : nat) (pa : path) (F : list (poly Z)) : outcome basis :=
  B <- squarefreebasis vless msrt srt mcomp qcomp rcomp zcomp ps rnd fuel pa (map (to_lex msrt srt) F) ;;
  Ok (map (fun t => (from_lex vo2 gt2 msrt2 srt2 (fst t), snd t)) B).
End Wrap.
