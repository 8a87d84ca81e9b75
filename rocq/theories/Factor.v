(** * Model of factorize for integer polynomials (polynomial_factorize.hh, polynomial_factorize_univar.hh
      713-882, 1180-1655, polynomial_factorize_wang.hh 2146-2555).

    Modelled in full: content extraction, the squarefree decomposition, the recombination of lifted factors by
    Zassenhaus' subset search and by van Hoeij's candidates with their trial divisions, the recombination of
    Wang's algorithm, the treatment of signs, contents and multiplicities.
    Not modelled (arbitrary oracles): prime selection and the factorization modulo p (__select_prime), Hensel
    lifting, LLL reduction and candidate extraction, the choice of evaluation points, Wang's leading
    coefficients and the multivariate lifting.  In the code all of these are deterministic functions of the
    polynomial, the precision phase and the round, hence functions here.
    std::sort by degree is an arbitrary function [usort], [fsort], [msortf] (it will be assumed to return a
    permutation).  Machine ints counting factors are natural numbers. *)
From Verif Require Import Prelude Coef Spec OrderSpec PairVec Mono MonoStruct Heap Poly Div PolyOps Groebner Zp NumSpec ZpProofs Gcd Sqf UGcd.
Local Open Scope Z_scope.

(** ** Combinations *)
(** the lambda next_combination (univar 774-784, wang 2349-2359): the next s-element subset of [0,n), as an increasing list *)
Fixpoint next_comb (n : nat) (idx : list nat) : option (list nat) :=
  match idx with
  | [] => None
  | a :: r =>
      match next_comb n r with
      | Some r' => Some (a :: r')
      | None => if Nat.eqb a (n - S (length r)) then None else Some (seq (S a) (S (length r)))
      end
  end.
(** the elements of T at the positions idx; a position out of range is undefined behaviour *)
Fixpoint pick {A} (T : list A) (idx : list nat) : outcome (list A) :=
  match idx with
  | [] => Ok []
  | i :: r => match nth_error T i with Some a => (l <- pick T r ;; Ok (a :: l)) | None => UB end
  end.
(** erasing the positions idx (univar 855-856: in decreasing order) *)
Fixpoint erase_from {A} (k : nat) (idx : list nat) (T : list A) : list A :=
  match T with
  | [] => []
  | a :: r => if existsb (Nat.eqb k) idx then erase_from (S k) idx r else a :: erase_from (S k) idx r
  end.
Definition erase {A} (idx : list nat) (T : list A) : list A := erase_from 0 idx T.

(** ** Univariate polynomials *)
Definition ulc (p : upz) : outcome Z := match p with [] => UB | t :: _ => Ok (snd t) end.
(** univar 713-722 [__upoly_primitive]; ZZ::operator/= truncates *)
Definition uprim (f : upz) : Z * upz :=
  match f with
  | [] => (1, [])
  | t :: _ => let c := if snd t <? 0 then - ucont f else ucont f in (c, map (fun t => (fst t, Z.quot (snd t) c)) f)
  end.
(** univar 94-103 [__symmetric_mod] *)
Definition symm_mod (m a : Z) : Z := let r := a mod m in if r >? m / 2 then r - m else r.
(** univar 106-119 [__upoly_symmetric_mod], 191-206 [__upoly_mod_coeff] *)
Definition usymm_mod (m : Z) (f : upz) : upz := p_mod Zc (symm_mod m) f.
Definition umod_coeff (m : Z) (f : upz) : upz := p_mod Zc (fun c => c mod m) f.
(** univar 725-740 [__subset_product_mod], 1270-1279; the normalization of the product, which is in normal form
    already, is left out *)
Fixpoint usubset (m : Z) (prod : upz) (l : list upz) : outcome upz :=
  match l with
  | [] => Ok (usymm_mod m prod)
  | h :: r => P <- umul prod h ;; usubset m (umod_coeff m P) r
  end.
(** univar 743-748 [__upoly_const_term] *)
Definition uconst_term (f : upz) : Z :=
  match rev f with [] => 0 | t :: _ => if fst t =? 0 then snd t else 0 end.

(** The part of the computation that is not modelled; [true] is phase 2 (full precision). *)
Record foracle := FOracle {
  o_select : upz -> bool * nat;               (* __select_prime: irreducible, factors.size() *)
  o_low : upz -> bool;                        (* a_h < a_mig, 1510 *)
  o_lift : upz -> bool -> list upz * Z;       (* __hensel_lift: lifted factors and modulus *)
  o_cand : upz -> bool -> nat -> list (list nat)  (* __extract_candidates in the n-th round of __vanhoeij_recombine *)
}.

Section Uni.
Variable usort : list upz -> list upz.
Variable o : foracle.

(** the trial division: univar 839-852, 1281-1293: the primitive candidate, and the primitive part of the quotient *)
Definition utrial (fuel : nat) (f_star g : upz) : outcome (option (upz * upz)) :=
  let pp_g := snd (uprim g) in
  '(q, r) <- udivrem fuel f_star pp_g ;;
  match r with
  | [] => Ok (Some (pp_g, snd (uprim q)))
  | _ => Ok None
  end.

(** 801-837: the two prunings; [true] means skip *)
Fixpoint prod_lc (c : Z) (l : list upz) : outcome Z :=
  match l with [] => Ok c | h :: r => a <- ulc h ;; prod_lc (c * a) r end.
Definition prune (m : Z) (f_star : upz) (sel : list upz) : outcome bool :=
  lc <- ulc f_star ;;
  lp <- prod_lc lc sel ;;
  let lp := symm_mod m lp in
  if negb (lp =? 0) && negb ((lc * lc) mod lp =? 0) then Ok true
  else
    let cp := symm_mod m (fold_left (fun c h => c * uconst_term h) sel lc) in
    Ok (negb (cp =? 0) && negb ((lc * uconst_term f_star) mod cp =? 0)).

(** 794-861: the do-while loop over the subsets of T of the size of idx *)
Fixpoint zass_scan (fuel : nat) (m : Z) (f_star : upz) (T : list upz) (idx : list nat) : outcome (option (upz * upz * list nat)) :=
  match fuel with
  | O => OutOfFuel
  | S f =>
      sel <- pick T idx ;;
      skip <- prune m f_star sel ;;
      r <- (if (skip : bool) then Ok None
            else (lc <- ulc f_star ;; g <- usubset m [(0, lc)] sel ;; utrial f f_star g)) ;;
      match r with
      | Some (g, q) => Ok (Some (g, q, idx))
      | None => match next_comb (length T) idx with
                | Some idx' => zass_scan f m f_star T idx'
                | None => Ok None
                end
      end
  end.
(** 786-881: the while loop *)
Fixpoint zass_loop (fuel : nat) (m : Z) (s : nat) (T : list upz) (f_star : upz) (res : list upz) : outcome (list upz) :=
  match fuel with
  | O => OutOfFuel
  | S f =>
      if Nat.leb (2 * s) (length T) then
        r <- zass_scan f m f_star T (seq 0 s) ;;
        match r with
        | Some (g, q, idx) => zass_loop f m 1 (erase idx T) q (res ++ [g])
        | None => zass_loop f m (S s) T f_star res
        end
      else Ok (usort (if (match f_star with [] => false | _ => true end) && (0 <? udeg f_star) then res ++ [f_star] else res))
  end.
(** 751-882 [__zassenhaus_recombine] *)
Definition zassenhaus (fuel : nat) (f : upz) (lifted : list upz) (m : Z) : outcome (list upz) :=
  if Nat.leb (length lifted) 1 then Ok (if 0 <? udeg f then [f] else [])
  else zass_loop fuel m 1 lifted f [].

(** 1252-1298: the candidates of one round; [consumed] are the positions used in this round *)
Fixpoint vh_cands (fuel : nat) (m : Z) (act : list upz) (cands : list (list nat)) (f_star : upz) (res : list upz) (consumed : list nat)
  (remaining : nat) : outcome (upz * list upz * list nat) :=
  match cands with
  | [] => Ok (f_star, res, consumed)
  | cand :: r =>
      if (match cand with [] => true | _ => false end) || Nat.leb remaining (length cand)
         || existsb (fun k => existsb (Nat.eqb k) consumed) cand
      then vh_cands fuel m act r f_star res consumed remaining
      else
        lc <- ulc f_star ;;
        sel <- pick act cand ;;
        g <- usubset m [(0, lc)] sel ;;
        t <- utrial fuel f_star g ;;
        match t with
        | None => vh_cands fuel m act r f_star res consumed remaining
        | Some (g, q) => vh_cands fuel m act r q (res ++ [g]) (consumed ++ cand) (remaining - length cand)
        end
  end.
(** 1225-1340: the rounds; [J] is J_target *)
Fixpoint vh_loop (fuel : nat) (ph : bool) (f : upz) (m : Z) (J0 Jmax : Z) (round : nat) (act : list upz) (f_star : upz) (res : list upz) (J : Z)
  : outcome (list upz) :=
  match fuel with
  | O => OutOfFuel
  | S n =>
      if Nat.leb (length act) 1 then
        Ok (usort (if (match f_star with [] => false | _ => true end) && (0 <? udeg f_star) then res ++ [f_star] else res))
      else
        '(f_star', res', consumed) <- vh_cands n m act (o_cand o f ph round) f_star res [] (length act) ;;
        match consumed with
        | _ :: _ => vh_loop n ph f m J0 Jmax (S round) (erase consumed act) f_star' res' 0
        | [] =>
            let J' := if J =? 0 then J0 else J * 2 in
            if J' >? Jmax then (z <- zassenhaus n f_star' act m ;; Ok (res' ++ z))
            else vh_loop n ph f m J0 Jmax (S round) act f_star' res' J'
        end
  end.
(** 1188-1341 [__vanhoeij_recombine] *)
Definition vanhoeij (fuel : nat) (ph : bool) (f : upz) (lifted : list upz) (m : Z) : outcome (list upz) :=
  let N := udeg f in
  let Jmax := (N + 1) / 2 in
  let J0 := Z.min (if N + 1 <? 3 * Z.of_nat (length lifted) then 30 else 10) Jmax in
  vh_loop fuel ph f m J0 Jmax 0 lifted f [] 0.
(** 1484-1528 [__lll_factorize] *)
Definition lll_factorize (fuel : nat) (f : upz) (r : nat) : outcome (list upz) :=
  let '(l1, m1) := o_lift o f false in
  res <- vanhoeij fuel false f l1 m1 ;;
  if Nat.ltb (length res) r && o_low o f then
    let '(l2, m2) := o_lift o f true in vanhoeij fuel true f l2 m2
  else Ok res.
(** 1538-1558 [__factor_squarefree_primitive_ZZ] *)
Definition factor_sp (fuel : nat) (f : upz) : outcome (list upz) :=
  let '(irr, n) := o_select o f in
  if irr || Nat.leb n 1 then Ok [f] else lll_factorize fuel f n.
End Uni.

(** ** Polynomials in several variables *)
(** Outcome of one evaluation point in __wang_core (wang 2294-2324): the image is irreducible, the leading
    coefficients or the lifting failed, or a list of lifted factors *)
Inductive attempt := Irreducible | Failed | Lifted (l : list (poly Z)).

Section Multi.
Context (vo : vorder).
Notation poly := (poly Z).
Variable msrt : list (var * Z) -> list (var * Z).
Variable srt : forall C : Type, Mono.poly C -> Mono.poly C.
Variable mcomp qcomp : poly -> poly -> outcome (option poly).
Variable rcomp : poly -> poly -> outcome (option (poly * poly)).
Variable zcomp : forall p (Hp : modulus p), Mono.poly (zpc p) -> Mono.poly (zpc p) -> outcome (option (Mono.poly (zpc p) * Mono.poly (zpc p))).
Variable ps : nat -> pmod.
Variable rnd : path -> nat -> Z.
Variable usrt : upz -> upz.                                  (* std::sort inside normalization *)
Variable usort : list upz -> list upz.                       (* the sorts by degree *)
Variable fsort : list (upz * nat) -> list (upz * nat).
Variable msortf : list (poly * nat) -> list (poly * nat).
Variable o : foracle.
Variable w_try : poly -> var -> nat -> attempt.
Notation sqf := (squarefreefactorize vo msrt srt mcomp qcomp rcomp zcomp ps rnd).
Notation pp := (poly_pp vo msrt srt mcomp qcomp rcomp zcomp ps rnd).

(** making the leading coefficient positive (factorize.hh 87-92, univar 1618-1622, wang 2257-2263) *)
Definition flip {M} (p : list (M * Z)) : list (M * Z) :=
  match p with
  | t :: _ => if snd t <? 0 then map (fun t => (fst t, - snd t)) p else p
  | [] => []
  end.
(** factorize.hh 67-97, univar 1598-1626: the squarefree factors one by one *)
Fixpoint uni_factors (fuel : nat) (l : list (poly * nat)) (ct : Z) (fs : list (upz * nat)) : outcome (Z * list (upz * nat)) :=
  match l with
  | [] => Ok (ct, fs)
  | (s, e) :: l =>
      if is_number s then
        match s with t :: _ => uni_factors fuel l (ct * snd t) fs | [] => UB end
      else
        let u := to_upoly Zc usrt s in
        if udeg u <=? 1 then uni_factors fuel l ct (fs ++ [(u, e)])
        else (irr <- factor_sp usort o fuel u ;; uni_factors fuel l ct (fs ++ map (fun p => (flip p, e)) irr))
  end.
(** factorize(upolynomial_<ZZ>), univar 1560-1655, and the univariate part of factorize(polynomial_<ZZ,lex>),
    factorize.hh 46-102, which differ only in that the latter converts the factors back; [v] is the variable used
    for the squarefree factorization *)
Definition factor_uni (fuel : nat) (pa : path) (v : var) (F : upz) : outcome (Z * list (upz * nat)) :=
  match F with
  | [] => Ok (0, [])
  | [(0, c)] => Ok (c, [])
  | _ =>
      let '(ct, up) := uprim F in
      if udeg up <=? 1 then Ok (ct, [(up, 1%nat)])
      else
        l <- sqf fuel pa (of_upoly v up) ;;
        '(ct', fs) <- uni_factors fuel l ct [] ;;
        Ok (ct', fsort fs)
  end.
(** factorize.hh 29-59 and 60-102 for a polynomial with at most one variable *)
Definition factor_one (fuel : nat) (pa : path) (F : poly) : outcome (Z * list (poly * nat)) :=
  match F with
  | [] => Ok (0, [])
  | t :: _ =>
      if is_number F then Ok (snd t, [])
      else
        match get_variables vo F with
        | [] => UB
        | (v, _) :: _ =>
            '(ct, fs) <- factor_uni fuel pa v (to_upoly Zc usrt F) ;;
            Ok (ct, map (fun t => (of_upoly v (fst t), snd t)) fs)
        end
  end.

(** wang 2146-2222 [__extract_monomial_content]: the variables occurring in every term, with their least exponent *)
Definition min_merge (l : list (var * Z)) (m : mono) : list (var * Z) :=
  flat_map (fun '(v, d) => match find (fun j => N.eqb (fst j) v) (md m) with Some (_, e) => [(v, Z.min d e)] | None => [] end) l.
Definition min_degs (F : poly) : list (var * Z) :=
  match F with
  | [] => []
  | t :: r => filter (fun j => negb (snd j =? 0)) (fold_left (fun l u => min_merge l (fst u)) r (md (fst t)))
  end.
Definition sub_mono (l : list (var * Z)) (m : mono) : mono :=
  re_deg (flat_map (fun '(v, d) => let s := match find (fun j => N.eqb (fst j) v) l with Some (_, e) => e | None => 0 end in
                                   if d >? s then [(v, d - s)] else []) (md m)).
Definition extract_mono (F : poly) : poly * list (var * Z) :=
  match min_degs F with
  | [] => (F, [])
  | l => (pv_normalization (lex_gt vo) mono_eqb Zc (srt Z) (map (fun t => (sub_mono l (fst t), snd t)) F), l)
  end.

(** wang 2257-2263 normalize_factor *)
Definition wnormalize (fuel : nat) (pa : path) (h : poly) : outcome poly := q <- pp fuel pa h ;; Ok (flip q).
Definition plain (p : poly) : bool := (match p with [] => false | _ => true end) && negb (is_number p).
(** 2332-2340 *)
Fixpoint wnormed (fuel : nat) (pa : path) (l : list poly) : outcome (list poly) :=
  match l with
  | [] => Ok []
  | h :: r =>
      h' <- wnormalize fuel (length r :: 0%nat :: pa) h ;;
      r' <- wnormed fuel pa r ;;
      Ok (if plain h' then h' :: r' else r')
  end.
(** 2375-2381: the product of a subset (again without the redundant normalization) *)
Fixpoint wprod (p : poly) (l : list poly) : outcome poly :=
  match l with [] => Ok p | h :: r => (q <- pmul vo mcomp p h ;; wprod q r) end.
(** 2374-2400: the do-while loop; T lists the factors not used yet *)
Fixpoint wscan (fuel : nat) (pa : path) (g : poly) (T : list poly) (idx : list nat) : outcome (option (poly * poly * list nat)) :=
  match fuel with
  | O => OutOfFuel
  | S f =>
      sel <- pick T idx ;;
      match sel with
      | [] => UB
      | h :: r =>
          prod <- wprod h r ;;
          prod <- wnormalize f (f :: 1%nat :: pa) prod ;;
          res <- (if plain prod then
                    '(q, rem) <- pdivrem vo rcomp f g prod ;;
                    match rem, q with
                    | [], _ :: _ => (q' <- wnormalize f (f :: 2%nat :: pa) q ;; Ok (Some (prod, q')))
                    | _, _ => Ok None
                    end
                  else Ok None) ;;
          match res with
          | Some (p, q) => Ok (Some (p, q, idx))
          | None => match next_comb (length T) idx with
                    | Some idx' => wscan f pa g T idx'
                    | None => Ok None
                    end
          end
      end
  end.
(** 2361-2409 *)
Fixpoint wloop (fuel : nat) (pa : path) (s : nat) (T : list poly) (g : poly) (ver : list (poly * nat)) : outcome (list (poly * nat) * poly * list poly) :=
  match fuel with
  | O => OutOfFuel
  | S f =>
      if Nat.leb (2 * s) (length T) then
        r <- wscan f (f :: 3%nat :: pa) g T (seq 0 s) ;;
        match r with
        | Some (p, q, idx) => wloop f pa 1 (erase idx T) q (ver ++ [(p, 1%nat)])
        | None => wloop f pa (S s) T g ver
        end
      else Ok (ver, g, T)
  end.
(** 2326-2426: [Some] is a successful return *)
Definition wrecombine (fuel : nat) (pa : path) (g : poly) (l : list poly) : outcome (option (list (poly * nat))) :=
  T <- wnormed fuel (0%nat :: pa) l ;;
  '(ver, g', T') <- wloop fuel (1%nat :: pa) 1 T g [] ;;
  if Nat.leb (length T') 1 then
    ver <- (if plain g' then
              (h <- wnormalize fuel (2%nat :: pa) g' ;; Ok (if is_number h then ver else ver ++ [(h, 1%nat)]))
            else Ok ver) ;;
    Ok (if Nat.leb 2 (length ver) then Some ver else None)
  else Ok None.
(** 2292-2428: one batch of evaluation points: a result, "dead", or exhausted *)
Inductive batch := BDone (l : list (poly * nat)) | BDead | BMore.
Fixpoint wbatch (fuel : nat) (cnt : nat) (pa : path) (g : poly) (x : var) (skip : nat) : outcome batch :=
  match cnt with
  | O => Ok BMore
  | S c =>
      match w_try g x skip with
      | Irreducible => Ok BDead
      | Failed => wbatch fuel c pa g x (S skip)
      | Lifted l =>
          match l with
          | [] => wbatch fuel c pa g x (S skip)
          | _ =>
              r <- wrecombine fuel (c :: pa) g l ;;
              match r with
              | Some ver => Ok (BDone ver)
              | None => wbatch fuel c pa g x (S skip)
              end
          end
      end
  end.
(** 2265-2436: the main variables in turn; each comes with its skip counter and dead flag *)
Fixpoint wround (fuel : nat) (pa : path) (g : poly) (st : list (var * nat * bool)) : outcome (list (poly * nat) + list (var * nat * bool)) :=
  match st with
  | [] => Ok (inr [])
  | (x, skip, dead) :: r =>
      b <- (if (dead : bool) then Ok BMore else wbatch fuel 200 (length r :: pa) g x skip) ;;
      match b with
      | BDone l => Ok (inl l)
      | _ =>
          let d := match b with BDead => true | _ => dead end in
          t <- wround fuel pa g r ;;
          Ok (match t with inl l => inl l | inr r' => inr ((x, if dead then skip else (skip + 200)%nat, d) :: r') end)
      end
  end.
Fixpoint wcore_loop (fuel : nat) (pa : path) (g : poly) (st : list (var * nat * bool)) : outcome (list (poly * nat)) :=
  match fuel with
  | O => OutOfFuel
  | S f =>
      t <- wround f (f :: pa) g st ;;
      match t with
      | inl l => Ok l
      | inr st' => if forallb snd st' then Ok [(g, 1%nat)] else wcore_loop f pa g st'
      end
  end.
(** 2225-2439 [__wang_core] *)
Definition wang_core (fuel : nat) (pa : path) (g : poly) : outcome (list (poly * nat)) :=
  match filter (fun j => p_degree_lex vo g (fst j) >? 1) (get_variables vo g) with
  | [] => Ok [(g, 1%nat)]
  | vs => wcore_loop fuel pa g (map (fun j => (fst j, 0%nat, false)) vs)
  end.

(** wang 2452-2520: the squarefree factors one by one *)
Definition scale_mult (mk : nat) (l : list (poly * nat)) : list (poly * nat) := map (fun t => (fst t, (snd t * mk)%nat)) l.
Fixpoint multi_factors (fuel : nat) (pa : path) (l : list (poly * nat)) (ct : Z) (fs : list (poly * nat)) : outcome (Z * list (poly * nat)) :=
  match l with
  | [] => Ok (ct, fs)
  | (g, mk) :: l =>
      let one ct fs gr :=
        '(c, sub) <- factor_one fuel (length l :: 0%nat :: pa) gr ;;
        multi_factors fuel pa l (ct * c ^ Z.of_nat mk) (fs ++ scale_mult mk sub) in
      if is_number g then
        match g with t :: _ => multi_factors fuel pa l (ct * snd t ^ Z.of_nat mk) fs | [] => UB end
      else if Nat.leb (length (get_variables vo g)) 1 then one ct fs g
      else
        let '(gr, ms) := extract_mono g in
        let fs := fs ++ map (fun j => ([(mono_var (fst j), 1)], (Z.to_nat (snd j) * mk)%nat)) ms in
        if Nat.leb (length (get_variables vo gr)) 1 then one ct fs gr
        else
          let neg := match gr with t :: _ => snd t <? 0 | [] => false end in
          w <- wang_core fuel (length l :: 1%nat :: pa) (flip gr) ;;
          multi_factors fuel pa l (if neg && Nat.odd mk then - ct else ct) (fs ++ scale_mult mk w)
  end.
(** wang 2523-2533 *)
Definition fix_signs (ct : Z) (fs : list (poly * nat)) : Z * list (poly * nat) :=
  (fold_left (fun c t => if (match fst t with u :: _ => snd u <? 0 | [] => false end) && Nat.odd (snd t) then - c else c) fs ct,
   map (fun t => (flip (fst t), snd t)) fs).
(** wang 2441-2556 [__factor_multivar] *)
Definition factor_multivar (fuel : nat) (pa : path) (F : poly) : outcome (Z * list (poly * nat)) :=
  l <- sqf fuel (0%nat :: pa) F ;;
  '(ct, fs) <- multi_factors fuel (1%nat :: pa) l 1 [] ;;
  let '(ct, fs) := fix_signs ct fs in
  Ok (ct, msortf fs).
(** factorize(polynomial_<ZZ,lex>), factorize.hh 23-121.  The checks under NDEBUG are left out. *)
Definition factorize (fuel : nat) (pa : path) (F : poly) : outcome (Z * list (poly * nat)) :=
  if Nat.ltb 1 (length (get_variables vo F)) then factor_multivar fuel pa F else factor_one fuel pa F.
End Multi.
