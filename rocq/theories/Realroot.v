(** * Model of realroot(F): real roots of a list of polynomials in one variable (realroot.hh 61-103).

    [sfb] is squarefreebasis, of the order of F (SqfBasis.v).  The messages of exceptions are not modelled. *)
From Verif Require Import Prelude Coef Spec OrderSpec PairVec Mono MonoStruct Heap Poly Div PolyOps Groebner Zp NumSpec ZpProofs QQ QQProofs Gcd Sqf SqfBasis Uspensky.
Local Open Scope Z_scope.

(** polynomial_.hh 241-248 [get_variables] of a vector of polynomials *)
Definition get_variables_list {C} (vo : vorder) (F : list (poly C)) : list (var * Z) :=
  fold_left (fun l p => fold_left (fun l t => vars_merge vo l (md (fst t))) p l) F [].

Section Realroot.
Variable vo : vorder.
Variable usrt : list (Z * Z) -> list (Z * Z).
Variable sfb : list (poly Z) -> outcome basis.
(** 61-103; the vectors of roots and of occurrences are one list of pairs *)
Definition realroot (fuel : nat) (F : list (poly Z)) : outcome (list (uroot * occurrences)) :=
  match F with
  | [] => Ok []
  | _ =>
      if Nat.ltb 1 (length (get_variables_list vo F)) then Throw
      else
        L <- sfb F ;;
        let G := map (fun t => to_upoly Zc usrt (fst t)) L in
        root <- uspensky_v fuel G ;;
        Ok (map (fun t : item => (Uroot (nth (snd t) G []) (fst (fst t)) (snd (fst t)), nth (snd t) (map snd L) [])) root)
  end.
End Realroot.
