(** * Model of monomials and monomial orders
      (basic_monomial.hh, monomial_order.hh 14-112, monomial.hh 20-113). *)
From Verif Require Import Prelude Coef Spec OrderSpec PairVec.
Local Open Scope Z_scope.

(** ** Variable orders.  A variable is its serial number (variable.hh). *)
Definition vorder := var -> var -> bool.

(** monomial_order.hh 14-24 [class less]. *)
Definition vless : vorder := N.ltb.

(** monomial_order.hh 25-55 [class custom_var_order]: [v_map] is a std::map built from a vector by
    [v_map[v[i]] = i+1] (later entries overwrite); [order] gives [size+1] to absent variables. *)
Definition vmap := list (var * Z).
Fixpoint vmap_find (m : vmap) (v : var) : option Z :=
  match m with
  | [] => None
  | (w, i) :: r => if N.eqb w v then Some i else vmap_find r v
  end.
Fixpoint vmap_set (m : vmap) (v : var) (x : Z) : vmap :=
  match m with
  | [] => [(v, x)]
  | (w, i) :: r => if N.eqb w v then (w, x) :: r else (w, i) :: vmap_set r v x
  end.
Fixpoint vmap_of_go (m : vmap) (i : Z) (vs : list var) : vmap :=
  match vs with
  | [] => m
  | v :: r => vmap_of_go (vmap_set m v (i + 1)) (i + 1) r
  end.
Definition vmap_of (vs : list var) : vmap := vmap_of_go [] 0 vs.
Definition custom_order (m : vmap) (v : var) : Z :=
  match vmap_find m v with
  | None => Z.of_nat (length m) + 1
  | Some i => i
  end.
Definition vcustom (m : vmap) : vorder := fun v1 v2 =>
  let o1 := custom_order m v1 in
  let o2 := custom_order m v2 in
  (o1 <? o2) || ((o1 =? o2) && N.ltb v1 v2).

(** monomial_order.hh 55-67 [class univariate_order]. *)
Definition vuniv (v : var) : vorder := fun v1 v2 =>
  negb (N.eqb v2 v) && (N.eqb v1 v || N.ltb v1 v2).

(** ** Monomials: basic_monomial.hh 22-28, the exponent vector [__data] and cached degree [__deg].
    Exponents and degrees are int64_t in the code and unbounded here. *)
Record mono := Mono { md : list (var * Z); mg : Z }.

Definition mono1 : mono := Mono [] 0.
(** basic_monomial(const variable&), basic_monomial.hh 70-72. *)
Definition mono_var (v : var) : mono := Mono [(v, 1)] 1.

Definition deg_sum (l : list (var * Z)) : Z := fold_right (fun t s => snd t + s) 0 l.

(** re_deg, basic_monomial.hh 39-45. *)
Definition re_deg (l : list (var * Z)) : mono := Mono l (deg_sum l).

(** push_back, basic_monomial.hh 152-159. *)
Definition mono_push (m : mono) (t : var * Z) : mono := Mono (md m ++ [t]) (mg m + snd t).

(** basic_monomial::deg(variable), basic_monomial.hh 314-321 with [find] 292-313. *)
Fixpoint deg_find (l : list (var * Z)) (v : var) : Z :=
  match l with
  | [] => 0
  | (w, e) :: r => if N.eqb w v then e else deg_find r v
  end.
Definition mono_deg (m : mono) (v : var) : Z := deg_find (md m) v.

(** operator==, basic_monomial.hh 246-258. *)
Definition mono_eqb (m1 m2 : mono) : bool :=
  (mg m1 =? mg m2) && pv_equal_to N.eqb Zc (md m2) (md m1).

Section Ord.
Variable vo : vorder.

(** basic_monomial(vector), basic_monomial.hh 53-63, 78-92: normalization and re_deg. *)
Definition mono_of (srt : list (var * Z) -> list (var * Z)) (l : list (var * Z)) : mono :=
  re_deg (pv_normalization vo N.eqb Zc srt l).

(** operator* (basic_monomial.hh 183-198) and __mono_mult__ (monomial.hh 55-66). *)
Definition mono_mul (m1 m2 : mono) : mono :=
  Mono (pv_add vo N.eqb Zc (md m1) (md m2)) (mg m1 + mg m2).

(** operator/ (basic_monomial.hh 199-213). *)
Definition mono_div (m1 m2 : mono) : mono :=
  Mono (pv_sub vo N.eqb Zc (md m1) (md m2)) (mg m1 - mg m2).

(** is_divexact, monomial.hh 68-79: the flag and the computed [op]. *)
Definition is_divexact (m1 m2 : mono) : bool * mono :=
  let op := mono_div m1 m2 in
  (if mg op <? 0 then false else forallb (fun t => negb (snd t <? 0)) (md op), op).

(** lcm, monomial.hh 80-113. *)
Fixpoint lcm_merge (l1 : list (var * Z)) : list (var * Z) -> list (var * Z) :=
  match l1 with
  | [] => fun l2 => l2
  | t1 :: r1 =>
      fix go (l2 : list (var * Z)) : list (var * Z) :=
        match l2 with
        | [] => l1
        | t2 :: r2 =>
            if vo (fst t1) (fst t2) then t1 :: lcm_merge r1 l2
            else if N.eqb (fst t1) (fst t2)
                 then (fst t1, Z.max (snd t1) (snd t2)) :: lcm_merge r1 r2
                 else t2 :: go r2
        end
  end.
Definition mono_lcm (m1 m2 : mono) : mono :=
  match md m1, md m2 with
  | [], _ => m2
  | _, [] => m1
  | _, _ => re_deg (lcm_merge (md m1) (md m2))   (* push_back accumulates the degree *)
  end.

(** pow of a monomial, polynomial_.hh 21-35. *)
Definition mono_pow (m : mono) (n : Z) : mono :=
  if n =? 0 then mono1 else re_deg (map (fun t => (fst t, snd t * n)) (md m)).

(** ** Monomial orders: monomial_order.hh 69-83 [lex_] and 95-112 [grlex_]. *)
Definition lex_gt (m1 m2 : mono) : bool := pv_comp vo N.eqb Zc Z.gtb (md m1) (md m2).
Definition grlex_gt (m1 m2 : mono) : bool :=
  (mg m1 >? mg m2) || ((mg m1 =? mg m2) && pv_comp vo N.eqb Zc Z.gtb (md m1) (md m2)).
End Ord.

(** ** Specification-side reading of model monomials and polynomials *)

(** A well-formed monomial: variables strictly in order, exponents positive, degree cached. *)
Definition mok (vo : vorder) (m : mono) : Prop :=
  desc vo (md m) /\ Forall (fun t => 0 < snd t) (md m) /\ mg m = deg_sum (md m).

(** exponent of [v] *)
Definition zexp (m : mono) (v : var) : Z := csum Zc (N.eqb v) (md m).

(** the specification monomial *)
Definition sm (m : mono) : smono := map (fun t => (fst t, Z.to_N (snd t))) (md m).

Definition poly (C : Type) := list (mono * C).

(** the specification polynomial *)
Definition raw {C} (p : poly C) : rpoly C := map (fun t => (sm (fst t), snd t)) p.
