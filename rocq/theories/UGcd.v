(** * Model of the univariate gcd over the integers and over Z/p (polynomial_gcd.cc, polynomial_gcd.hh 1059-1139).

    A upolynomial_<Tc> is a list of (degree, coefficient), highest degree first.  The sequence of primes
    2^64-59, prev_prime_64(..), ... is an arbitrary stream [ps]. *)
From Verif Require Import Prelude Coef Spec OrderSpec PairVec Mono MonoStruct Heap Poly Div PolyOps Zp NumSpec ZpProofs Dense DenseSparse Gcd.
Local Open Scope Z_scope.

Definition upz := list (Z * Z).
(** umonomials have no packed representation: pair_vec_div, pair_vec_multiplies on upolynomials *)
Definition nohook2 {A B : Type} (_ _ : A) : outcome (option B) := Ok None.
Definition udiv (fuel : nat) (F G : upz) : outcome upz :=
  pair_vec_div (m_gt uniS) (m_eq uniS) (m_mul uniS) (m_div uniS) Zc fuel nohook2 F G.
Definition udivrem (fuel : nat) (F G : upz) : outcome (upz * upz) :=
  pair_vec_div_rem (m_gt uniS) (m_eq uniS) (m_mul uniS) (m_div uniS) Zc fuel nohook2 F G.
Definition umul (F G : upz) : outcome upz := p_mul uniS Zc nohook2 F G.

(** get_deg, upolynomial.hh 91-95. *)
Definition udeg {C} (p : list (Z * C)) : Z := match p with [] => 0 | t :: _ => fst t end.

(** cont, polynomial_gcd.hh 1059-1071. *)
Definition ucont (G : upz) : Z :=
  match G with [] => 1 | t :: r => fold_left (fun c u => Z.gcd c (snd u)) r (snd t) end.

(** ** GCDHEU, polynomial_gcd.cc 10-132 *)
(** ZZ::sizeinbase(2), ZZ.hh 703-722 *)
Definition bits2 (c : Z) : Z := if c =? 0 then 1 else Z.log2 (Z.abs c) + 1.
(** 19-26 *)
Definition max_bits (F : upz) : Z := fold_left (fun b t => Z.max b (bits2 (snd t))) F 0.
(** 32-34 *)
Definition pack_bits (bf bg : Z) : Z := Z.max (Z.min bf bg + 6) (Z.max bf bg + 1).
(** 37-42: the dense coefficient array [c_0, ..., c_deg] *)
Definition udense (F : upz) : list Z := of_sparse F.
(** 50-60: Horner's rule from the leading coefficient down *)
Definition horner (xi : Z) (l : list Z) : Z := fold_left (fun v c => v * xi + c) (rev l) 0.
(** 93-107: the symmetric digits of g, least significant first; at most n of them *)
Fixpoint digits (n : nat) (k : Z) (i : Z) (g : Z) : upz :=
  match n with
  | O => []
  | S n' =>
      if g =? 0 then []
      else
        let mask := 2 ^ k - 1 in
        let r := Z.land g mask in
        let q := Z.shiftr g k in
        let '(r, q) := if r >? Z.quot (2 ^ k) 2 then (r - mask - 1, q + 1) else (r, q) in
        (if r =? 0 then [] else [(i, r)]) ++ digits n' k (i + 1) q
  end.
(** 114-119: the primitive part with positive leading coefficient *)
Definition heu_pp (H : upz) : upz :=
  let c := ucont H in
  let H := if (c =? 1) || (c =? -1) then H else map (fun t => (fst t, Z.quot (snd t) c)) H in
  match H with
  | t :: _ => if snd t <? 0 then map (fun t => (fst t, - snd t)) H else H
  | [] => H
  end.
(** [None] is the return value false. [srt] is std::sort (inside normalization). *)
Definition gcdheu (srt : upz -> upz) (fuel : nat) (F G : upz) : outcome (option upz) :=
  let bf := max_bits F in
  let bg := max_bits G in
  if 128 <=? bf + bg then Ok None
  else
    let k := pack_bits bf bg in
    let xi := 2 ^ k in
    let g := Z.gcd (Z.abs (horner xi (udense F))) (Z.abs (horner xi (udense G))) in
    let H := digits (Z.to_nat (Z.min (udeg F) (udeg G) + 1)) k 0 g in
    match H with
    | [] => Ok None
    | _ =>
        let H := heu_pp (pv_normalization (m_gt uniS) (m_eq uniS) Zc srt (rev H)) in
        '(_, R) <- udivrem fuel F H ;;
        match R with
        | [] =>
            '(_, R') <- udivrem fuel G H ;;
            match R' with
            | [] => Ok (Some H)
            | _ => Ok None
            end
        | _ => Ok None
        end
    end.

(** ** The modular gcd, polynomial_gcd.hh 1078-1107; [None] is the return value -1. *)
Section Mod.
Context (p : Z) (Hp : modulus p).
Definition umod_gcd (fuel : nat) (G F : list (Z * zpc p)) (Lc : zpc p) (deg : Z) : outcome (option (list (Z * zpc p) * Z)) :=
  match F, G with
  | _ :: _, _ :: _ =>
      r <- d_gcd p fuel (of_up F) (of_up G) ;;
      match rev r with
      | [] => UB
      | l :: _ =>
          i <- inv_prime l p ;;
          let r := d_scalar_mul p (nmod_mul p i (proj1_sig Lc)) r in
          let d := Z.of_nat (length r) - 1 in
          Ok (if d >? deg then None else Some (to_up p Hp r, d))
      end
  | _, _ => Throw
  end.
(** 1111-1139: the monic gcd *)
Definition umonic (r : list (Z * zpc p)) : outcome (list (Z * zpc p)) :=
  match r with
  | [] => UB
  | t :: _ => i <- zp_inv p (proj1_sig (snd t)) ;; Ok (map (fun u => (fst u, cmul (Zpc p Hp) (snd u) (zpc_of p Hp i))) r)
  end.
Definition uzp_gcd (fuel : nat) (F G : list (Z * zpc p)) : outcome (list (Z * zpc p)) :=
  match F, G with
  | [], [] => Ok []
  | [], _ => umonic G
  | _, [] => umonic F
  | _, _ =>
      r <- umod_gcd fuel F G (c1 (Zpc p Hp)) (Z.min (udeg F) (udeg G)) ;;
      umonic (match r with None => [] | Some (g, _) => g end)
  end.
End Mod.

(** ** polynomial_GCD(upolynomial_<ZZ>), polynomial_gcd.cc 134-332 *)
(** 266-295: merging Pout_ and the new image *)
Section Crt.
Context {p : Z} (inv M : Z).
Definition ucrt_l (t : Z * Z) : Z * Z := (fst t, snd t - snd t * inv * M).
Definition ucrt_r (u : Z * zpc p) : Z * Z := (fst u, proj1_sig (snd u) * inv * M).
Fixpoint ucrt_merge (P : upz) : list (Z * zpc p) -> upz :=
  match P with
  | [] => fun Q => map ucrt_r Q
  | t :: P' =>
      fix go (Q : list (Z * zpc p)) : upz :=
        match Q with
        | [] => map ucrt_l P
        | u :: Q' =>
            if m_gt uniS (fst t) (fst u) then ucrt_l t :: ucrt_merge P' Q
            else if m_eq uniS (fst t) (fst u) then
              (fst u, snd t + (proj1_sig (snd u) - snd t) * inv * M) :: ucrt_merge P' Q'
            else ucrt_r u :: go Q'
        end
  end.
End Crt.

Section UGcd.
Variable srt : upz -> upz.
Variable ps : nat -> pmod.

(** 196-330.  [i] indexes the primes, [M] is Pout_prime, [d] is Pout_d, [P] is Pout_.  As in Gcd.v the model
    stops (OutOfFuel) if the merged polynomial has a zero coefficient, which can only happen after a failed trial
    division. *)
Fixpoint ucrt_loop (n : nat) (F G : upz) (lc_gcd cont_gcd : Z) (i : nat) (M d : Z) (P : upz) : outcome upz :=
  match n with
  | O => OutOfFuel
  | S n' =>
      let p := pm (ps i) in
      let Hp := pm_ok (ps i) in
      match F, G with
      | tf :: _, tg :: _ =>
          if (Z.rem (snd tf) p =? 0) || (Z.rem (snd tg) p =? 0) then
            ucrt_loop n' F G lc_gcd cont_gcd (S i) M d P
          else
            let K := Zpc p Hp in
            r <- umod_gcd p Hp n' (p_mod K (zpc_of p Hp) F) (p_mod K (zpc_of p Hp) G) (zpc_of p Hp lc_gcd) d ;;
            match r with
            | None => ucrt_loop n' F G lc_gcd cont_gcd (S i) M d P
            | Some (Q, d') =>
                if d' <? d then
                  ucrt_loop n' F G lc_gcd cont_gcd (S i) p d' (map (fun t => (fst t, symm1 p (proj1_sig (snd t)))) Q)
                else
                  inv <- zp_inv p (M mod p) ;;
                  let M' := M * p in
                  let T := map (fun t => (fst t, symm2 M' (snd t))) (ucrt_merge inv M P Q) in
                  if existsb (fun t => snd t =? 0) T then OutOfFuel
                  else if pv_equal_to (m_eq uniS) Zc T P then
                    if 0 <? d then
                      H <- udiv n' T [(0, ucont P)] ;;
                      '(_, R) <- udivrem n' F H ;;
                      match R with
                      | [] =>
                          '(_, R') <- udivrem n' G H ;;
                          match R' with
                          | [] => umul H [(0, cont_gcd)]
                          | _ => ucrt_loop n' F G lc_gcd cont_gcd (S i) M' d H
                          end
                      | _ => ucrt_loop n' F G lc_gcd cont_gcd (S i) M' d H
                      end
                    else Ok [(0, cont_gcd)]
                  else ucrt_loop n' F G lc_gcd cont_gcd (S i) M' d T
            end
      | _, _ => UB
      end
  end.

(** 140-158: one operand has a single term *)
Definition usingle_gcd (t : Z * Z) (r : upz) : Z * Z :=
  fold_left (fun a u => (Z.min (fst a) (fst u), Z.gcd (snd a) (snd u))) r t.

(** 134-332.  The code names its parameters (G, F); here F is the second argument as in the code. *)
Definition upoly_gcd (fuel : nat) (G F : upz) : outcome upz :=
  match F, G with
  | [], _ => Ok G
  | _, [] => Ok F
  | tf :: rf, tg :: rg =>
      if (match rf with [] => true | _ => false end) || (match rg with [] => true | _ => false end) then
        Ok [usingle_gcd tf (rf ++ G)]
      else
        let f_cont := ucont F in
        let g_cont := ucont G in
        let cont_gcd := Z.gcd f_cont g_cont in
        let F := map (fun t => (fst t, Z.quot (snd t) f_cont)) F in
        let G := map (fun t => (fst t, Z.quot (snd t) g_cont)) G in
        h <- gcdheu srt fuel F G ;;
        match h with
        | Some H => Ok (if cont_gcd =? 1 then H else map (fun t => (fst t, snd t * cont_gcd)) H)
        | None =>
            let lc_gcd := Z.gcd (match F with t :: _ => snd t | [] => 0 end) (match G with t :: _ => snd t | [] => 0 end) in
            ucrt_loop fuel F G lc_gcd cont_gcd 0 0 int64_max []
        end
  end.
End UGcd.
