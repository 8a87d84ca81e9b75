(** * Model of the polynomial layer: scalar and monomial operations, degrees, coefficients,
      substitution, derivative, conversions
      (polynomial_.hh, polynomial.hh, polynomial_convert.hh, upolynomial.hh, monomial.hh 143-180).

    A multivariate polynomial is [poly C] = list (mono * C); [gt] is the comparator of its monomial
    order, [vo] its variable order. *)
From Verif Require Import Prelude Coef Spec OrderSpec PairVec Mono MonoStruct Poly.
Local Open Scope Z_scope.

(** The image of an int64_t in the coefficient type ([Tc(b)], or [b*c] for an int64_t [b]). *)
Definition cofZ {C} (K : coefs C) (z : Z) : C :=
  match z with
  | Z0 => c0 K
  | Zpos p => Pos.iter_op (cadd K) p (c1 K)
  | Zneg p => copp K (Pos.iter_op (cadd K) p (c1 K))
  end.

Section Ops.
Context {C : Type} (K : coefs C).

(** ** Adding a scalar: polynomial_.hh 168-177.  On the empty polynomial [O.back()] is undefined. *)
Definition mempty (m : mono) : bool := match md m with [] => true | _ => false end.
Fixpoint add_scalar (p : poly C) (c : C) : outcome (poly C) :=
  match p with
  | [] => UB
  | [(m, a)] => Ok (if mempty m then [(m, cadd K a c)] else [(m, a); (mono1, c)])
  | t :: r => (r' <- add_scalar r c ;; Ok (t :: r'))
  end.
(** polynomial_.hh 140-145: p - c;  146-151: c - p. *)
Definition sub_scalar (p : poly C) (c : C) : outcome (poly C) := add_scalar p (copp K c).
Definition scalar_sub (c : C) (p : poly C) : outcome (poly C) := add_scalar (p_neg K p) c.

(** ** Adding a monomial: polynomial_.hh 183-192, 204-212; [one] is 1 resp. -1. *)
Definition add_mono (S : monos mono) (p : poly C) (m : mono) (one : C) : poly C :=
  match rev p with
  | t :: _ => if negb (m_gt S (fst t) m) then p_add S K p [(m, one)] else p ++ [(m, one)]
  | [] => p ++ [(m, one)]
  end.

(** ** Scaling: polynomial_.hh 213-222, upolynomial.hh 203-216 (a zero scalar returns the empty
    polynomial). *)
Definition p_scale {M} (S : monos M) (srt : list (M * C) -> list (M * C)) (p : list (M * C)) (c : C)
  : list (M * C) :=
  if is0 K c then []
  else pv_normalization (m_gt S) (m_eq S) K srt (map (fun t => (fst t, cmul K (snd t) c)) p).

(** Two-term constructors: polynomial_.hh 86-105, 107-126: the initializer list is normalized. *)
Definition of_terms (gt : mono -> mono -> bool) (srt : poly C -> poly C) (l : poly C) : poly C :=
  pv_normalization gt mono_eqb K srt l.
(** polynomial_.hh 95-100: monomial - monomial. *)
Definition mono_minus_mono (gt : mono -> mono -> bool) (srt : poly C -> poly C) (m1 m2 : mono) : poly C :=
  if gt m1 m2 then of_terms gt srt [(m1, c1 K); (m2, copp K (c1 K))]
  else of_terms gt srt [(m2, copp K (c1 K)); (m1, c1 K)].
(** polynomial_.hh 89-94: monomial + monomial. *)
Definition mono_plus_mono (gt : mono -> mono -> bool) (srt : poly C -> poly C) (m1 m2 : mono) : poly C :=
  if gt m1 m2 then of_terms gt srt [(m1, c1 K); (m2, c1 K)]
  else of_terms gt srt [(m2, c1 K); (m1, c1 K)].

(** ** Degrees *)
(** the loop of polynomial.hh 56-61 and 118-123 *)
Definition max_deg (f : mono -> Z) (p : poly C) : Z :=
  match p with
  | [] => 0
  | t :: r => fold_left (fun d u => if f (fst u) >? d then f (fst u) else d) r (f (fst t))
  end.
(** degree(p,v), generic order: polynomial.hh 47-62. *)
Definition p_degree (p : poly C) (v : var) : Z := max_deg (fun m => mono_deg m v) p.
(** get_first_var / get_first_deg of a monomial and of a lex polynomial: polynomial.hh 69-88. *)
Definition mfirst_var (m : mono) : var := match md m with [] => 0%N | (w, _) :: _ => w end.
Definition mfirst_deg (m : mono) : Z := match md m with [] => 0 | (_, e) :: _ => e end.
Definition first_var (p : poly C) : var := match p with [] => 0%N | t :: _ => mfirst_var (fst t) end.
Definition first_deg (p : poly C) : Z := match p with [] => 0 | t :: _ => mfirst_deg (fst t) end.
(** degree(p,v), lex orders: polynomial.hh 109-124. *)
Definition p_degree_lex (vo : vorder) (p : poly C) (v : var) : Z :=
  match p with
  | [] => 0
  | _ => if N.eqb (first_var p) v then first_deg p
         else if vo v (first_var p) then 0
         else p_degree p v
  end.
(** get_deg for the default (graded) order: polynomial_.hh 242-248; generic: 250-259 (the maximum over
    all terms, starting from the first). *)
Definition get_deg_grlex (p : poly C) : Z := match p with [] => 0 | t :: _ => mg (fst t) end.
Definition get_deg (p : poly C) : Z :=
  match p with
  | [] => 0
  | t :: _ => fold_left (fun d u => Z.max (mg (fst u)) d) p (mg (fst t))
  end.

(** ** get_variables: monomial.hh 143-180.  One monomial is merged into the sorted list [l]. *)
Section Vars.
Variable vo : vorder.
Fixpoint vars_merge (l : list (var * Z)) : list (var * Z) -> list (var * Z) :=
  match l with
  | [] => fun ms => ms
  | t :: l' =>
      fix go (ms : list (var * Z)) : list (var * Z) :=
        match ms with
        | [] => l
        | u :: ms' =>
            if vo (fst t) (fst u) then t :: vars_merge l' ms
            else if vo (fst u) (fst t) then u :: go ms'
            else (fst t, if snd u >? snd t then snd u else snd t) :: vars_merge l' ms'
        end
  end.
Definition get_variables (p : poly C) : list (var * Z) :=
  fold_left (fun l t => vars_merge l (md (fst t))) p [].

(** ** Replacing the exponent of [v] in a monomial *)
(** __change_monomial_var_deg: polynomial.hh 126-152. *)
Fixpoint cvd (v : var) (d : Z) (l : list (var * Z)) : list (var * Z) :=
  match l with
  | [] => if d =? 0 then [] else [(v, d)]
  | (w, e) :: r =>
      if N.eqb v w then (if d =? 0 then r else (v, d) :: r)
      else if vo v w then (if d =? 0 then l else (v, d) :: l)
      else (w, e) :: cvd v d r
  end.
Definition change_var_deg (m : mono) (v : var) (d : Z) : mono := re_deg (cvd v d (md m)).
End Vars.

(** univariate_priority_order = lex_<univariate_order>: get_up_deg, monomial_order.hh 172-173. *)
Definition up_deg (v : var) (m : mono) : Z :=
  match md m with [] => 0 | (w, e) :: _ => if N.eqb w v then e else 0 end.
(** __change_up_monomial_var_deg: polynomial.hh 154-175. *)
Definition change_up (v : var) (m : mono) (d : Z) : mono :=
  if d =? 0 then
    (if up_deg v m =? 0 then m else re_deg (tl (md m)))
  else re_deg ((v, d) :: (if up_deg v m =? 0 then md m else tl (md m))).

(** ** coeff(F) for a univariate-priority order: polynomial.hh 177-194.  [tmp] is reused after
    [std::move]; a moved-from std::vector is taken to be empty (true of every implementation, and of
    libstdc++ in particular). *)
Definition p_up_deg (v : var) (p : poly C) : Z := match p with [] => 0 | t :: _ => up_deg v (fst t) end.
Fixpoint coeff_go (v : var) (m : Z) (tmp : poly C) (coF : list (poly C)) (F : poly C)
  : outcome (list (poly C)) :=
  match F with
  | [] => aset coF (Z.to_nat m) tmp
  | t :: r =>
      let d := up_deg v (fst t) in
      if negb (d =? m) then
        (coF' <- aset coF (Z.to_nat m) tmp ;;
         coeff_go v d [(change_up v (fst t) 0, snd t)] coF' r)
      else coeff_go v m (tmp ++ [(change_up v (fst t) 0, snd t)]) coF r
  end.
Definition coeff_up (v : var) (F : poly C) : outcome (list (poly C)) :=
  coeff_go v (p_up_deg v F) [] (repeat [] (Z.to_nat (p_up_deg v F + 1))) F.

(** leadcoeff(O,F) for a univariate-priority order: polynomial.hh 211-233. *)
Fixpoint lead_up_go (v : var) (d : Z) (F : poly C) : poly C :=
  match F with
  | [] => []
  | t :: r => if negb (up_deg v (fst t) =? d) then []
              else (change_up v (fst t) 0, snd t) :: lead_up_go v d r
  end.
Definition leadcoeff_up (v : var) (F : poly C) : poly C * Z :=
  let d := p_up_deg v F in
  (if d =? 0 then F else lead_up_go v d F, d).

(** leadcoeff(F) for a lex order, ZZ coefficients: polynomial.hh 235-262. *)
Fixpoint lead_lex_go (v : var) (d : Z) (F : poly C) : poly C :=
  match F with
  | [] => []
  | t :: r =>
      match md (fst t) with
      | (w, e) :: l => if N.eqb w v && (e =? d) then (re_deg l, snd t) :: lead_lex_go v d r else []
      | [] => []
      end
  end.
Definition leadcoeff_lex (F : poly C) : poly C := lead_lex_go (first_var F) (first_deg F) F.

(** leadcoeff(O,F,v), any order: polynomial.hh 263-287.  [find] locates [v]; the data of a monomial has
    at most one entry for it. *)
Definition leadcoeff_v (vo : vorder) (gt : mono -> mono -> bool) (srt : poly C -> poly C)
  (F : poly C) (v : var) : poly C * Z :=
  let deg := fold_left (fun d u => if mono_deg (fst u) v >? d then mono_deg (fst u) v else d) F 0 in
  (if deg =? 0 then F
   else pv_normalization gt mono_eqb K srt
          (flat_map (fun t => if mono_deg (fst t) v =? deg
                              then [(change_var_deg vo (fst t) v 0, snd t)] else []) F),
   deg).

(** ** Substitution: polynomial.hh 688-729 (one variable) and 731-817 (a map); [rho v = Some c] when
    [v] is to be replaced by [c].  [pow] on the coefficients is exact. *)
Definition asg_mono (rho : var -> option C) (m : mono) : mono :=
  re_deg (filter (fun j => match rho (fst j) with Some _ => false | None => true end) (md m)).
Definition asg_coef (rho : var -> option C) (z : C) (m : mono) : C :=
  fold_left (fun z j => match rho (fst j) with
                        | Some c => cmul K z (cpow K c (Z.to_nat (snd j)))
                        | None => z end) (md m) z.
(** [pend] is the pending term (m1,z1), [None] while [f] holds. *)
Fixpoint asg_go (rho : var -> option C) (pend : option (mono * C)) (p : poly C) : poly C :=
  match p with
  | [] => match pend with
          | Some (m1, z1) => if is0 K z1 then [] else [(m1, z1)]
          | None => []          (* z1 is still the default 0 *)
          end
  | t :: r =>
      let m := asg_mono rho (fst t) in
      let z := asg_coef rho (snd t) (fst t) in
      match pend with
      | None => asg_go rho (Some (m, z)) r
      | Some (m1, z1) =>
          if negb (mono_eqb m m1) then
            (if is0 K z1 then [] else [(m1, z1)]) ++ asg_go rho (Some (m, z)) r
          else asg_go rho (Some (m1, cadd K z1 z)) r
      end
  end.
Definition p_assign (gt : mono -> mono -> bool) (srt : poly C -> poly C)
  (rho : var -> option C) (p : poly C) : poly C :=
  pv_normalization gt mono_eqb K srt (asg_go rho None p).
Definition assign1 (v : var) (c : C) : var -> option C := fun w => if N.eqb w v then Some c else None.

(** ** Derivative: polynomial.hh 819-848. *)
Definition dmono (x : var) (m : mono) : mono :=
  re_deg (flat_map (fun j => if N.eqb (fst j) x
                             then (if snd j - 1 =? 0 then [] else [(x, snd j - 1)]) else [j]) (md m)).
Definition dexp (x : var) (m : mono) : Z :=
  fold_left (fun b j => if N.eqb (fst j) x then snd j else b) (md m) 0.
Definition p_derivative (x : var) (p : poly C) : poly C :=
  flat_map (fun t => let b := dexp x (fst t) in
                     if b =? 0 then [] else [(dmono x (fst t), cmul K (cofZ K b) (snd t))]) p.
(** derivative(p) for lex orders, with respect to the first variable: polynomial.hh 849-872. *)
Definition p_derivative_lex (p : poly C) : poly C :=
  let x := first_var p in
  flat_map (fun t => match md (fst t) with
     | (w, e) :: l => if N.eqb x w
         then [(re_deg ((if e - 1 =? 0 then [] else [(x, e - 1)]) ++ l), cmul K (cofZ K e) (snd t))] else []
     | [] => []
     end) p.

(** is_number: polynomial.hh 874-878. *)
Definition is_number (p : poly C) : bool :=
  match p with [] => true | [t] => mempty (fst t) | _ => false end.
(** tonum: polynomial_convert.hh 14-22. *)
Definition tonum (p : poly C) : outcome C :=
  if is_number p then Ok (match p with [] => c0 K | t :: _ => snd t end) else Throw.
End Ops.

(** ** Conversions *)
Section Convert.
Context {C1 C2 : Type} (K2 : coefs C2).

(** poly_convert between polynomial types, polynomial_convert.hh 60-121: each monomial's data is copied
    into the target order (basic_monomial::operator=(vector) normalizes), the coefficient converted by
    [phi], and the polynomial normalized. *)
Definition p_convert (vo2 : vorder) (gt2 : mono -> mono -> bool)
  (msrt : list (var * Z) -> list (var * Z)) (srt : poly C2 -> poly C2) (phi : C1 -> C2)
  (p : poly C1) : poly C2 :=
  pv_normalization gt2 mono_eqb K2 srt
    (map (fun t => (mono_of vo2 msrt (md (fst t)), phi (snd t))) p).

(** polynomial_mod, polynomial.hh 657-686, and upolynomial.hh 100-112: [phi] is the reduction; zero
    residues are dropped. *)
Definition p_mod {M} (phi : C1 -> C2) (p : list (M * C1)) : list (M * C2) :=
  flat_map (fun t => if is0 K2 (phi (snd t)) then [] else [(fst t, phi (snd t))]) p.
End Convert.

(** poly -> upoly (upolynomial.hh 121-142): each monomial becomes its total degree, then normalization;
    upoly -> poly (143-156): degree e becomes v^e (1 when e = 0). *)
Definition to_upoly {C} (K : coefs C) (usrt : list (Z * C) -> list (Z * C)) (p : poly C) : list (Z * C) :=
  pv_normalization Z.gtb Z.eqb K usrt (map (fun t => (mg (fst t), snd t)) p).
Definition umono (v : var) (e : Z) : mono := if e >? 0 then re_deg [(v, e)] else mono1.
Definition of_upoly {C} (v : var) (p : list (Z * C)) : poly C :=
  map (fun t => (umono v (fst t), snd t)) p.

(** coeff(F,v), any order: polynomial.hh 196-209. *)
Definition p_coeff {C} (K : coefs C) (vo : vorder) (gt : mono -> mono -> bool)
  (msrt1 msrt2 : list (var * Z) -> list (var * Z)) (srt1 srt2 : poly C -> poly C)
  (F : poly C) (v : var) : outcome (list (poly C)) :=
  cs <- coeff_up v (p_convert K (vuniv v) (lex_gt (vuniv v)) msrt1 srt1 (fun c => c) F) ;;
  Ok (map (fun c => p_convert K vo gt msrt2 srt2 (fun a => a) c) cs).

(** ** Univariate polynomials *)
(** derivative: upolynomial.hh 182-196. *)
Definition u_derivative {C} (K : coefs C) (p : list (Z * C)) : list (Z * C) :=
  flat_map (fun t => if fst t =? 0 then []
                     else (let c := cmul K (snd t) (cofZ K (fst t)) in
                           if is0 K c then [] else [(fst t - 1, c)])) p.
(** assign (evaluation): upolynomial.hh 74-84; [pow] is exact. *)
Definition u_assign {C} (K : coefs C) (p : list (Z * C)) (a : C) : C :=
  fold_left (fun o t => cadd K o (cmul K (snd t) (cpow K a (Z.to_nat (fst t))))) p (csub K a a).
