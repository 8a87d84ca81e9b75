(** * Model of the quadratic Hensel lifting of univariate integer polynomials (polynomial_factorize_univar.hh 185-600).

    An upolynomial_<ZZ> is a list of (degree, coefficient), highest degree first; degrees are unbounded integers (in
    the code they are int64_t and at most the degree of the input).  The vector of nodes with child indices is a tree
    (index -1 is [HLeaf]); the fields leaf_start, leaf_end are never read.  mpz_invert is an arbitrary function
    [invert]; the theorems assume its documentation. *)
From Verif Require Import Prelude Coef Spec OrderSpec PairVec Mono MonoStruct Heap Poly Div PolyOps Zp NumSpec ZpProofs Dense DenseSparse Gcd UGcd ExtGcd FactorZp.
Local Open Scope Z_scope.

Notation upz := (list (Z * Z)).
Section Lift.
Variable invert : Z -> Z -> option Z.          (* ZZ::invert, number/ZZ.hh 839-855 *)

(** a term is kept if its coefficient is not 0 *)
Definition keep (e c : Z) : upz := if c =? 0 then [] else [(e, c)].
(** __upoly_mod_coeff, 190-205 *)
Definition mod_coeff (m : Z) (f : upz) : upz := flat_map (fun t => keep (fst t) (snd t mod m)) f.
(** for (auto& term : f) term.second *= m *)
Definition mul_coeff (m : Z) (f : upz) : upz := map (fun t => (fst t, snd t * m)) f.
(** 415-428 and 470-483: exact division of the coefficients by m, then reduction modulo m *)
Definition div_coeff (m : Z) (f : upz) : upz := flat_map (fun t => keep (fst t) ((snd t / m) mod m)) f.

(** 246-300: r minus c * x^d * g, leading terms skipped; all coefficients reduced *)
Fixpoint sub_mul (m c d : Z) (r : upz) : upz -> upz :=
  fix go (g : upz) : upz :=
    match r, g with
    | [], [] => []
    | (er, cr) :: r', [] => keep er (cr mod m) ++ sub_mul m c d r' []
    | [], (eg, cg) :: g' => keep (eg + d) ((m - Z.rem (Z.rem (c * cg) m) m) mod m) ++ go g'
    | (er, cr) :: r', (eg, cg) :: g' =>
        if eg + d <? er then keep er (cr mod m) ++ sub_mul m c d r' g
        else if er <? eg + d then keep (eg + d) ((m - Z.rem (Z.rem (c * cg) m) m) mod m) ++ go g'
        else keep er ((cr - c * cg) mod m) ++ sub_mul m c d r' g'
    end.
(** 228-302: the loop; every round lowers the degree of r, so the degree bounds the rounds *)
Fixpoint divmod_loop (n : nat) (m inv : Z) (g q r : upz) : outcome (upz * upz) :=
  match r with
  | [] => Ok (q, r)
  | (er, cr) :: r' =>
      if udeg g <=? er then
        match n with
        | O => OutOfFuel
        | S n' =>
            let d := er - udeg g in
            let c := (cr * inv) mod m in
            if c =? 0 then divmod_loop n' m inv g q r'
            else divmod_loop n' m inv g (q ++ [(d, c)]) (sub_mul m c d r' (tl g))
        end
      else Ok (q, r)
  end.
(** __upoly_divmod_mod, 208-303.  The failing assertions (g empty, lc(g) not invertible) are undefined behaviour in a
    release build. *)
Definition divmod (f g : upz) (m : Z) : outcome (upz * upz) :=
  match g with
  | [] => UB
  | t :: _ =>
      match invert (snd t) m with
      | None => UB
      | Some inv => let r := mod_coeff m f in divmod_loop (S (Z.to_nat (udeg r))) m inv g [] r
      end
  end.
(** operator* on upolynomial_<ZZ> *)
Definition hmul (f g : upz) : outcome upz := p_mul uniS Zc nohook2 f g.
Definition hadd (f g : upz) : upz := p_add uniS Zc f g.
Definition hsub (f g : upz) : upz := p_sub uniS Zc f g.

(** 311-320 *)
Inductive htree := HLeaf | HNode (g h s t : upz) (left right : htree).

(** __hensel_step, 404-497; the four polynomials of the node *)
Definition hensel_step (g h s t f : upz) (m : Z) : outcome (upz * upz * upz * upz) :=
  let m2 := m * m in
  gh <- hmul g h ;;
  let e := div_coeff m (hsub f gh) in
  se <- hmul s e ;;
  '(q, r) <- divmod se h m ;;
  te <- hmul t e ;;
  qg <- hmul q g ;;
  let tau := mod_coeff m (hadd te qg) in
  let g := mod_coeff m2 (hadd g (mul_coeff m tau)) in
  let h := mod_coeff m2 (hadd h (mul_coeff m r)) in
  sg <- hmul s g ;;
  th <- hmul t h ;;
  let ep := div_coeff m (hsub (hsub [(0, 1)] sg) th) in
  sep <- hmul s ep ;;
  '(q2, r2) <- divmod sep h m ;;
  let s' := mod_coeff m2 (hadd s (mul_coeff m r2)) in
  tep <- hmul t ep ;;
  qpg <- hmul q2 g ;;
  let tau2 := mod_coeff m (hadd tep qpg) in
  let t' := mod_coeff m2 (hadd t (mul_coeff m tau2)) in
  Ok (g, h, s', t').
(** __hensel_lift_recursive, 520-532 *)
Fixpoint lift_rec (tr : htree) (target : upz) (m : Z) : outcome htree :=
  match tr with
  | HLeaf => Ok HLeaf
  | HNode g h s t l r =>
      '(g, h, s, t) <- hensel_step g h s t target m ;;
      l <- lift_rec l g m ;;
      r <- lift_rec r h m ;;
      Ok (HNode g h s t l r)
  end.
(** __hensel_extract_factors, 500-515 *)
Fixpoint leaves (tr : htree) : list upz :=
  match tr with
  | HLeaf => []
  | HNode g h _ _ l r =>
      (match l with HLeaf => [g] | _ => leaves l end) ++ (match r with HLeaf => [h] | _ => leaves r end)
  end.

Section Build.
Context (p : Z) (Hp : modulus p).
Notation zup := (list (Z * zpc p)).
Variable srt : zup -> zup.                       (* std::sort inside normalization *)
(** poly_convert from Zp to ZZ (called at 358-361): the residues.  Simplified: the final normalization() is omitted, it
    does nothing on a list that is already normal. *)
Definition to_zz (f : zup) : upz := map (fun t => (fst t, proj1_sig (snd t))) f.
(** 346-353: the product of a non-empty range *)
Fixpoint zprod_from (acc : zup) (l : list zup) : outcome zup :=
  match l with [] => Ok acc | f :: l => a <- zmul p Hp acc f ;; zprod_from a l end.
Definition zprod (l : list zup) : outcome zup := match l with [] => UB | f :: l => zprod_from f l end.
(** __hensel_tree_build_recursive, 334-390: the factors start .. end are the list; [n] bounds the depth *)
Fixpoint tree_build (n fuel : nat) (fs : list zup) : outcome htree :=
  match n with
  | O => OutOfFuel
  | S n' =>
      let mid := Nat.div2 (length fs) in
      let ls := firstn mid fs in
      let rs := skipn mid fs in
      g <- zprod ls ;;
      h <- zprod rs ;;
      '(_, s, t) <- uzp_ext p Hp srt fuel g h ;;
      l <- (if (2 <=? length ls)%nat then tree_build n' fuel ls else Ok HLeaf) ;;
      r <- (if (2 <=? length rs)%nat then tree_build n' fuel rs else Ok HLeaf) ;;
      Ok (HNode (to_zz g) (to_zz h) (to_zz s) (to_zz t) l r)
  end.
(** 573-579 *)
Fixpoint lift_loop (n : nat) (target : Z) (f : upz) (tr : htree) (m : Z) : outcome (htree * Z) :=
  if m <=? target then
    match n with
    | O => OutOfFuel
    | S n' => tr <- lift_rec tr f m ;; lift_loop n' target f tr (m * m)
    end
  else Ok (tr, m).
(** 588-597: the first factor is made monic *)
Definition monic_first (L : list upz) (m : Z) : outcome (list upz) :=
  match L with
  | [] => Ok []
  | f :: l =>
      match f with
      | [] => UB
      | t :: _ =>
          if snd t =? 1 then Ok L
          else match invert (snd t) m with None => UB | Some i => Ok (mod_coeff m (mul_coeff i f) :: l) end
      end
  end.
(** 564-569: factor 0 multiplied by lc(f) modulo p *)
Definition bake_lc (c : Z) (fs : list zup) : list zup :=
  match fs with
  | [] => []
  | f :: l => uscale (Zpc p Hp) srt (zpc_of p Hp c) f :: l
  end.
(** __hensel_lift, 537-600, for an arbitrary precision target (547-562 computes it from the Mignotte bound, or as
    p^a - 1) *)
Definition hensel_lift (fuel : nat) (f : upz) (factors : list zup) (target : Z) : outcome (list upz * Z) :=
  match f with
  | [] => UB
  | t :: _ =>
      tr <- tree_build (length factors) fuel (bake_lc (snd t) factors) ;;
      '(tr, m) <- lift_loop fuel target f tr p ;;
      L <- monic_first (leaves tr) m ;;
      Ok (L, m)
  end.
End Build.
End Lift.
