(** * groebner.hh 391-472: groebner_basis over ZZ, the Ideal class (model). *)
From Verif Require Import Prelude Coef Spec OrderSpec PairVec Mono MonoStruct Poly PolyOps QQ NumSpec QQProofs ConvertQQ Groebner.
Local Open Scope Z_scope.

(** The content of groebner.hh 421-427: a running gcd that stops at 1. *)
Fixpoint content_loop (c : Z) (p : poly Z) : Z :=
  match p with
  | [] => c
  | t :: r => let c := Z.gcd c (Z.abs (snd t)) in if c =? 1 then c else content_loop c r
  end.
(** groebner.hh 420-433: signed content, then [term.second /= c] (truncated division of ZZ.hh 470). *)
Definition make_primitive (p : poly Z) : outcome (poly Z) :=
  match p with
  | [] => UB
  | t :: _ =>
      let c := content_loop (Z.abs (snd t)) p in
      let c := if snd t <? 0 then - c else c in
      Ok (map (fun u => (fst u, snd u ÷ c)) p)
  end.
Fixpoint mapM {A B} (f : A -> outcome B) (l : list A) : outcome (list B) :=
  match l with [] => Ok [] | a :: r => b <- f a ;; r' <- mapM f r ;; Ok (b :: r') end.

Section GZ.
Context (vo : vorder) (S : monos mono) (psrt : list cpair -> list cpair).
(** the sorts of the two conversions (monomials, QQ terms, ZZ terms) *)
Context (msrt : list (var * Z) -> list (var * Z)) (srtq : poly qqc -> poly qqc) (srtz : poly Z -> poly Z).
(** groebner.hh 393-398. *)
Definition groebner_QQ (fuel : nat) (F : list (poly qqc)) : outcome (list (poly qqc)) :=
  buchberger QQc (cquo QQc) vo S psrt fuel F.
(** groebner.hh 401-439. *)
Definition groebner_ZZ (fuel : nat) (F : list (poly Z)) : outcome (list (poly Z)) :=
  G <- groebner_QQ fuel (map (p_convert QQc vo (m_gt S) msrt srtq qqc_int) F) ;;
  mapM (fun g => make_primitive (p_convert_qq vo (m_gt S) msrt srtz g)) G.
End GZ.

(** class Ideal, groebner.hh 443-470.  [gbf] is groebner_basis of the coefficient type, [nff] is normal_form. *)
Section Ideal.
Context {C : Type} (gbf : nat -> list (poly C) -> outcome (list (poly C))).
Context (nff : nat -> poly C -> list (poly C) -> outcome (poly C)).
Record ideal_obj := IdealObj { id_gens : list (poly C); id_cache : list (poly C); id_computed : bool }.
(** constructors, 449-453 *)
Definition ideal_new (gens : list (poly C)) : ideal_obj := IdealObj gens [] false.
(** groebner_basis(), 459-465: fills the cache on first use *)
Definition ideal_gb (fuel : nat) (o : ideal_obj) : outcome (list (poly C) * ideal_obj) :=
  if id_computed o then Ok (id_cache o, o)
  else G <- gbf fuel (id_gens o) ;; Ok (G, IdealObj (id_gens o) G true).
(** reduce(), 472-474 *)
Definition ideal_reduce (fuel : nat) (o : ideal_obj) (f : poly C) : outcome (poly C * ideal_obj) :=
  '(G, o') <- ideal_gb fuel o ;; r <- nff fuel f G ;; Ok (r, o').
(** contains(), 467-470 *)
Definition ideal_contains (fuel : nat) (o : ideal_obj) (f : poly C) : outcome (bool * ideal_obj) :=
  '(r, o') <- ideal_reduce fuel o f ;; Ok (match r with [] => true | _ => false end, o').
End Ideal.
(** Ideal<ZZ> divides coefficients with ZZ's operator/ (truncated). *)
Definition normal_form_ZZ (S : monos mono) (fuel : nat) (f : poly Z) (G : list (poly Z)) : outcome (poly Z) :=
  normal_form Zc Z.quot S fuel f G.
