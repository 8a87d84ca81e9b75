(** * Model of the factorization modulo a prime (polynomial_factorize_zp.hh 1-396).

    A upolynomial_<Zp> is a list of (degree, coefficient), highest degree first.  The random generator is an
    arbitrary stream of draws; std::sort is an arbitrary function.  Exponents and degrees are unbounded integers
    (in the code they are uint64_t or int64_t and at most the degree of the input). *)
From Verif Require Import Prelude Coef Spec OrderSpec PairVec Mono MonoStruct Heap Poly Div PolyOps Zp NumSpec ZpProofs Dense DenseSparse Gcd UGcd.
Local Open Scope Z_scope.

Section FZ.
Context (p : Z) (Hp : modulus p).
Notation K := (Zpc p Hp).
Notation zup := (list (Z * zpc p)).
Variable srt : zup -> zup.                                       (* std::sort inside normalization *)
Variable rsort : list (zup * Z) -> list (zup * Z).               (* std::sort of the result, by degree *)
Variable draw : nat -> Z.                                        (* the k-th number drawn, 0 <= draw k < p *)

(** pair_vec_div and operator* on upolynomials: umonomials have no packed representation. *)
Definition zdiv (fuel : nat) (F G : zup) : outcome zup :=
  pair_vec_div (m_gt uniS) (m_eq uniS) (m_mul uniS) (m_div uniS) K fuel nohook2 F G.
Definition zdivrem (fuel : nat) (F G : zup) : outcome (zup * zup) :=
  pair_vec_div_rem (m_gt uniS) (m_eq uniS) (m_mul uniS) (m_div uniS) K fuel nohook2 F G.
Definition zmul (F G : zup) : outcome zup := p_mul uniS K nohook2 F G.
(** normalization() *)
Definition znorm (F : zup) : zup := pv_normalization (m_gt uniS) (m_eq uniS) K srt F.

(** __upoly_make_monic, 27-36; the returned leading coefficient is read by the callers from the head. *)
Definition make_monic (f : zup) : outcome zup :=
  match f with
  | [] => UB
  | t :: _ => if proj1_sig (snd t) =? 1 then Ok f
              else i <- zp_inv p (proj1_sig (snd t)) ;; Ok (map (fun u => (fst u, cmul K (snd u) (zpc_of p Hp i))) f)
  end.
(** __upoly_mod, 39-46 *)
Definition upoly_mod (fuel : nat) (f g : zup) : outcome zup := '(_, r) <- zdivrem fuel f g ;; Ok r.
(** __upoly_powmod, 59-83 *)
Fixpoint powmod_loop (n : nat) (result b : zup) (e : Z) (modpoly : zup) : outcome zup :=
  match n with
  | O => OutOfFuel
  | S n' =>
      if 0 <? e then
        result <- (if negb (Z.rem e 2 =? 0) then (r <- zmul result b ;; upoly_mod n' r modpoly) else Ok result) ;;
        let e := Z.quot e 2 in
        b <- (if 0 <? e then (r <- zmul b b ;; upoly_mod n' r modpoly) else Ok b) ;;
        powmod_loop n' result b e modpoly
      else Ok result
  end.
Definition powmod (fuel : nat) (base : zup) (e : Z) (modpoly : zup) : outcome zup :=
  match modpoly with
  | [] => UB
  | _ => b <- upoly_mod fuel base modpoly ;; powmod_loop fuel [(0, c1 K)] b e modpoly
  end.
(** __upoly_random, 86-100: the draws are numbered from k; one draw per degree *)
Fixpoint random_poly (n : nat) (k : nat) : zup :=
  match n with
  | O => []
  | S n' => let c := draw k in (if c =? 0 then [] else [(Z.of_nat n', zpc_of p Hp c)]) ++ random_poly n' (S k)
  end.
(** __extract_pth_root, 107-118 *)
Definition extract_pth_root (f : zup) : outcome zup :=
  match f with [] => UB | _ => Ok (map (fun t => (fst t / p, snd t)) f) end.

(** __squarefree_Zp, 121-178.  149-170: the loop; it returns the pairs found and the last c. *)
Definition nonconst (f : zup) : bool := (match f with [] => false | _ => true end) && (0 <? udeg f).
Fixpoint sq_loop (n : nat) (w c : zup) (i : Z) (res : list (zup * Z)) : outcome (list (zup * Z) * zup) :=
  match n with
  | O => OutOfFuel
  | S n' =>
      if nonconst w then
        y <- uzp_gcd p Hp n' w c ;;
        z <- zdiv n' w y ;;
        let z := znorm z in
        res <- (if nonconst z then (z <- make_monic z ;; Ok (res ++ [(z, i)])) else Ok res) ;;
        c' <- zdiv n' c y ;;
        sq_loop n' y (znorm c') (i + 1) res
      else Ok (res, c)
  end.
Fixpoint squarefree (n : nat) (f : zup) : outcome (list (zup * Z)) :=
  match n with
  | O => OutOfFuel
  | S n' =>
      match f with
      | [] => UB
      | _ =>
          let root (c : zup) :=
            g <- extract_pth_root c ;;
            g <- make_monic g ;;
            sub <- squarefree n' g ;;
            Ok (map (fun t => (fst t, snd t * p)) sub) in
          match u_derivative K f with
          | [] => root f
          | fd =>
              c <- uzp_gcd p Hp n' f fd ;;
              w <- zdiv n' f c ;;
              '(res, c) <- sq_loop n' (znorm w) c 1 [] ;;
              if nonconst c then (sub <- root c ;; Ok (res ++ sub)) else Ok res
          end
      end
  end.

(** __upoly_subtract_x, 181-213 *)
Definition minus_one : zpc p := zpc_of p Hp (p - 1).
Fixpoint sub_x_go (inserted : bool) (h : zup) : zup :=
  match h with
  | [] => if inserted then [] else [(1, minus_one)]
  | t :: r =>
      let ins := negb inserted && (fst t <? 1) in
      let inserted := inserted || ins in
      (if ins then [(1, minus_one)] else []) ++
      (if fst t =? 1 then
         (let c := csub K (snd t) (c1 K) in (if is0 K c then [] else [(1, c)]) ++ sub_x_go true r)
       else t :: sub_x_go inserted r)
  end.
Definition subtract_x (h : zup) : zup := znorm (sub_x_go false h).
(** __upoly_subtract_one, 216-246 *)
Definition sub_one_go (h : zup) : zup :=
  flat_map (fun t => if fst t =? 0 then (let c := csub K (snd t) (c1 K) in if is0 K c then [] else [(0, c)]) else [t]) h.
Definition subtract_one (h : zup) : zup :=
  if existsb (fun t => fst t =? 0) h then sub_one_go h else znorm (sub_one_go h ++ [(0, minus_one)]).

(** __ddf_Zp, 249-298 *)
Fixpoint ddf_loop (n : nat) (d : Z) (h fs : zup) (res : list (zup * Z)) : outcome (list (zup * Z)) :=
  match n with
  | O => OutOfFuel
  | S n' =>
      if udeg fs <? 2 * d then
        (if nonconst fs then (fs <- make_monic fs ;; Ok (res ++ [(fs, udeg fs)])) else Ok res)
      else
        h <- powmod n' h p fs ;;
        gd <- uzp_gcd p Hp n' (subtract_x h) fs ;;
        if nonconst gd then
          gd <- make_monic gd ;;
          fn <- zdiv n' fs gd ;;
          let fs := znorm fn in
          h <- upoly_mod n' h fs ;;
          ddf_loop n' (d + 1) h fs (res ++ [(gd, d)])
        else ddf_loop n' (d + 1) h fs res
  end.
Definition ddf (fuel : nat) (f : zup) : outcome (list (zup * Z)) :=
  match f with [] => UB | _ => ddf_loop fuel 1 [(1, c1 K)] f [] end.

(** __edf_Zp, 301-356; [k] counts the draws.  322-332: characteristic 2 *)
Fixpoint trace_loop (fuel : nat) (n : nat) (g r f : zup) : outcome zup :=
  match n with
  | O => Ok g
  | S n' => g2 <- zmul g g ;; g <- upoly_mod fuel (p_add uniS K g2 r) f ;; trace_loop fuel n' g r f
  end.
(** 320-340 *)
Definition edf_try (fuel : nat) (r f : zup) (d : Z) : outcome zup :=
  if p =? 2 then
    g <- upoly_mod fuel r f ;;
    g <- trace_loop fuel (Z.to_nat (d - 1)) g r f ;;
    uzp_gcd p Hp fuel g f
  else
    g <- powmod fuel r (Z.quot (p ^ d - 1) 2) f ;;
    uzp_gcd p Hp fuel (subtract_one g) f.
(** the loop 315-355 goes round by calling the function again with the same f (the two tests before it give the
    same answers) *)
Fixpoint edf (n : nat) (f : zup) (d : Z) (k : nat) : outcome (list zup * nat) :=
  match n with
  | O => OutOfFuel
  | S n' =>
      if udeg f =? d then (g <- make_monic f ;; Ok ([g], k))
      else if udeg f <=? 0 then Ok ([], k)
      else
        let r := random_poly (Z.to_nat (udeg f)) k in
        let k := (k + Z.to_nat (udeg f))%nat in
        match r with
        | [] => edf n' f d k
        | _ =>
            g <- edf_try n' r f d ;;
            if (0 <? udeg g) && (udeg g <? udeg f) then
              h <- zdiv n' f g ;;
              g <- make_monic g ;;
              h <- make_monic (znorm h) ;;
              '(l1, k) <- edf n' g d k ;;
              '(l2, k) <- edf n' h d k ;;
              Ok (l1 ++ l2, k)
            else edf n' f d k
        end
  end.

(** __factor_Zp, 359-391 *)
Fixpoint edf_all (n : nat) (l : list (zup * Z)) (e : Z) (k : nat) : outcome (list (zup * Z) * nat) :=
  match l with
  | [] => Ok ([], k)
  | (g, d) :: l =>
      '(hs, k) <- edf n g d k ;;
      '(rest, k) <- edf_all n l e k ;;
      Ok (map (fun h => (h, e)) hs ++ rest, k)
  end.
Fixpoint factor_all (n : nat) (l : list (zup * Z)) (k : nat) : outcome (list (zup * Z)) :=
  match l with
  | [] => Ok []
  | (s, e) :: l =>
      dd <- ddf n s ;;
      '(hs, k) <- edf_all n dd e k ;;
      rest <- factor_all n l k ;;
      Ok (hs ++ rest)
  end.
Definition factor_zp (n : nat) (f : zup) : outcome (zpc p * list (zup * Z)) :=
  match f with
  | [] => UB
  | t :: _ =>
      if fst t <=? 0 then Ok (snd t, [])
      else
        f <- make_monic f ;;
        sqf <- squarefree n f ;;
        l <- factor_all n sqf 0 ;;
        Ok (snd t, rsort l)
  end.
End FZ.
