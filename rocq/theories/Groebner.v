(** * Model of groebner.hh: S-polynomials, normal forms, Buchberger's algorithm, ideals.

    [S] is the monomial structure (order) over the variable order [vo]; [dv] is [operator/] of the
    coefficient type.  [front()] of an empty vector is undefined behaviour ([UB]) in the public
    [normal_form]; in [__update], [__interreduce] and the main loop every polynomial is non-empty (filtered at
    groebner.hh 333-340, [!h.empty()] at 376), and the model uses [lm], whose value on [] is irrelevant. *)
From Verif Require Import Prelude Coef Spec OrderSpec PairVec Mono MonoStruct Poly.
Local Open Scope Z_scope.

(** gcd of monomials, polynomial_gcd.hh 20-48: a merge keeping common variables with the smaller exponent
    (push_back accumulates the degree). *)
Section MG.
Variable vo : vorder.
Fixpoint gcd_merge (l1 : list (var * Z)) : list (var * Z) -> list (var * Z) :=
  match l1 with
  | [] => fun _ => []
  | t1 :: r1 =>
      fix go (l2 : list (var * Z)) : list (var * Z) :=
        match l2 with
        | [] => []
        | t2 :: r2 =>
            if vo (fst t1) (fst t2) then gcd_merge r1 l2
            else if N.eqb (fst t1) (fst t2) then (fst t1, Z.min (snd t1) (snd t2)) :: gcd_merge r1 r2
            else go r2
        end
  end.
Definition mono_gcd (m1 m2 : mono) : mono := re_deg (gcd_merge (md m1) (md m2)).
End MG.

(** groebner.hh 184-189 [__critical_pair]. *)
Record cpair := CP { ci : nat; cj : nat; csug : Z; clcm : Z }.
(** groebner.hh 191-196 [__cp_compare]. *)
Definition cp_less (a b : cpair) : bool :=
  if negb (csug a =? csug b) then csug a <? csug b else clcm a <? clcm b.

Section G.
Context {C : Type} (K : coefs C) (dv : C -> C -> C) (vo : vorder) (S : monos mono).

Definition lm (p : poly C) : mono := match p with [] => mono1 | t :: _ => fst t end.
Definition lc (p : poly C) : C := match p with [] => c0 K | t :: _ => snd t end.
(** the loops that multiply every monomial by [m] and map the coefficients. *)
Definition mul_term (m : mono) (f : C -> C) (p : poly C) : poly C :=
  map (fun t => (m_mul S (fst t) m, f (snd t))) p.

(** groebner.hh 21-57 [__s_polynomial], 60-66 [s_polynomial]; the assert of line 25 is [Throw]. *)
Definition s_poly (f g : poly C) : outcome (poly C) :=
  match f, g with
  | tf :: _, tg :: _ =>
      let L := mono_lcm vo (fst tf) (fst tg) in
      let m_f := mono_div vo L (fst tf) in
      let m_g := mono_div vo L (fst tg) in
      Ok (p_sub S K (mul_term m_f (fun c => dv c (snd tf)) f) (mul_term m_g (fun c => dv c (snd tg)) g))
  | _, _ => Throw
  end.

(** The search loop of groebner.hh 82-102: the first G[i] whose leading monomial divides [m], with its
    index and the quotient. *)
Fixpoint find_red (m : mono) (i : nat) (G : list (poly C)) : outcome (option (nat * mono * poly C)) :=
  match G with
  | [] => Ok None
  | g :: r =>
      match g with
      | [] => UB
      | t :: _ => let '(b, q) := m_div S m (fst t) in
                  if b then Ok (Some (i, q, g)) else find_red m (Datatypes.S i) r
      end
  end.

(** groebner.hh 111-156 [__normal_form_with_sugar]; [__normal_form] (70-109) is the same loop without
    [sugar]. *)
Fixpoint nf_loop (fuel : nat) (G : list (poly C)) (sv : list Z) (h r : poly C) (sugar : Z)
  : outcome (poly C * Z) :=
  match fuel with
  | O => OutOfFuel
  | Datatypes.S f =>
      match h with
      | [] => Ok (r, sugar)
      | t :: h' =>
          x <- find_red (fst t) 0 G ;;
          match x with
          | Some (i, q, g) =>
              let c := dv (snd t) (lc g) in
              nf_loop f G sv (p_sub S K h (mul_term q (fun d => cmul K d c) g)) r
                (Z.max sugar (nth i sv 0 + mg (fst t) - mg (lm g)))
          | None => nf_loop f G sv h' (r ++ [t]) sugar
          end
      end
  end.
Definition nf_sugar (fuel : nat) (f : poly C) (G : list (poly C)) (sv : list Z) (s : Z) : outcome (poly C * Z) :=
  match f, G with
  | [], _ => Ok (f, s)
  | _, [] => Ok (f, s)
  | _, _ => nf_loop fuel G sv f [] s
  end.
(** groebner.hh 159-165 [normal_form]. *)
Definition normal_form (fuel : nat) (f : poly C) (G : list (poly C)) : outcome (poly C) :=
  x <- nf_sugar fuel f G [] 0 ;; Ok (fst x).

(** groebner.hh 169-177 [__make_monic]. *)
Definition make_monic (f : poly C) : poly C :=
  match f with
  | [] => []
  | t :: _ => if ceqb K (snd t) (c1 K) then f else map (fun u => (fst u, dv (snd u) (snd t))) f
  end.

(** groebner.hh 198-283 [__update], step by step.  [psrt] is the std::sort of lines 234-237. *)
Variable psrt : list cpair -> list cpair.
Fixpoint mk_pairs (k : nat) (n : nat) (lh : mono) (hs : Z) (G : list (poly C)) (sv : list Z) : list cpair :=
  match G with
  | [] => []
  | g :: r =>
      let L := mono_lcm vo (lm g) lh in
      CP k n (Z.max (hd 0 sv + mg L - mg (lm g)) (hs + mg L - mg lh)) (mg L)
      :: mk_pairs (Datatypes.S k) n lh hs r (tl sv)
  end.
Definition glm (G : list (poly C)) (i : nat) : mono := lm (nth i G []).
(** step 2, lines 219-231: a pair is kept unless h eliminates it. *)
Definition keep_pair (G : list (poly C)) (lh : mono) (p : cpair) : bool :=
  let Lij := mono_lcm vo (glm G (ci p)) (glm G (cj p)) in
  negb (fst (m_div S Lij lh) &&
        (negb (mono_eqb (mono_lcm vo (glm G (ci p)) lh) Lij) &&
         negb (mono_eqb (mono_lcm vo lh (glm G (cj p))) Lij))).
(** step 3, lines 245-264. *)
Fixpoint minimal_new (kept : list (cpair * mono)) (l : list (cpair * mono)) : list (cpair * mono) :=
  match l with
  | [] => kept
  | t :: r => if existsb (fun u => fst (m_div S (snd t) (snd u))) kept then minimal_new kept r
              else minimal_new (kept ++ [t]) r
  end.
Definition update (G : list (poly C)) (sv : list Z) (pairs : list cpair) (h : poly C) (hs : Z)
  : list (poly C) * list Z * list cpair :=
  let lh := lm h in
  let np := psrt (mk_pairs 0 (length G) lh hs G sv) in
  let old := filter (keep_pair G lh) pairs in
  let mn := minimal_new [] (map (fun p => (p, mono_lcm vo (glm G (ci p)) lh)) np) in
  (* step 4, lines 267-274 *)
  let fin := filter (fun p => negb (mg (mono_gcd vo (glm G (ci p)) lh) =? 0)) (map fst mn) in
  (G ++ [h], sv ++ [hs], old ++ fin).

(** groebner.hh 287-309, step 1 of [__interreduce]: [kept] are the elements before index i. *)
Fixpoint drop_redundant (kept rest : list (poly C)) : list (poly C) :=
  match rest with
  | [] => kept
  | g :: r => if existsb (fun g' => fst (m_div S (lm g) (lm g'))) (kept ++ r) then drop_redundant kept r
              else drop_redundant (kept ++ [g]) r
  end.
(** step 2, lines 311-321. *)
Fixpoint reduce_all (fuel : nat) (done rest : list (poly C)) : outcome (list (poly C)) :=
  match rest with
  | [] => Ok done
  | g :: r =>
      g' <- normal_form fuel g (done ++ r) ;;
      reduce_all fuel (done ++ [make_monic g']) r
  end.
Definition interreduce (fuel : nat) (G : list (poly C)) : outcome (list (poly C)) :=
  reduce_all fuel [] (drop_redundant [] G).

(** std::min_element with [__cp_compare] and [erase], lines 368-370: the first smallest pair and the
    others in order. *)
Fixpoint take_min (best : cpair) (before : list cpair) (seen : list cpair) (l : list cpair) : cpair * list cpair :=
  match l with
  | [] => (best, before ++ seen)
  | p :: r => if cp_less p best then take_min p (before ++ best :: seen) [] r
              else take_min best before (seen ++ [p]) r
  end.

(** The main loop, lines 366-382. *)
Fixpoint bb_loop (fuel : nat) (G : list (poly C)) (sv : list Z) (pairs : list cpair) : outcome (list (poly C)) :=
  match fuel with
  | O => OutOfFuel
  | Datatypes.S f =>
      match pairs with
      | [] => Ok G
      | p0 :: r0 =>
          let '(p, rest) := take_min p0 [] [] r0 in
          gi <- aget G (ci p) ;;
          gj <- aget G (cj p) ;;
          h0 <- s_poly gi gj ;;
          '(h, hs) <- nf_sugar f h0 G sv (csug p) ;;
          match h with
          | [] => bb_loop f G sv rest
          | _ => let '(G', sv', pairs') := update G sv rest (make_monic h) hs in bb_loop f G' sv' pairs'
          end
      end
  end.

(** get_deg, polynomial_.hh 251-268: the largest total degree. *)
Definition p_totdeg (p : poly C) : Z := fold_left (fun d t => Z.max (mg (fst t)) d) p (mg (lm p)).

(** groebner.hh 325-389 [__buchberger]. *)
Fixpoint init_loop (G : list (poly C)) (sv : list Z) (pairs : list cpair) (rest : list (poly C))
  : list (poly C) * list Z * list cpair :=
  match rest with
  | [] => (G, sv, pairs)
  | h :: r => let '(G', sv', pairs') := update G sv pairs h (p_totdeg h) in init_loop G' sv' pairs' r
  end.
Definition buchberger (fuel : nat) (F : list (poly C)) : outcome (list (poly C)) :=
  match map make_monic (filter (fun f => match f with [] => false | _ => true end) F) with
  | [] => Ok []
  | [g] => interreduce fuel [g]
  | g :: r =>
      let '(G, sv, pairs) := init_loop [g] [p_totdeg g] [] r in
      G' <- bb_loop fuel G sv pairs ;;
      interreduce fuel G'
  end.
End G.
