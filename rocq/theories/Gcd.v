(** * Model of the multivariate gcd over the integers (polynomial_gcd.hh 20-72, 247-450, 573-696,
      815-1040; polynomial.hh 90-110).

    The sequence of primes 2^64-59, prev_prime_64(..), ... is an arbitrary stream [ps]; the random
    evaluation points are an arbitrary oracle [rnd path i]: the i-th number drawn by the dynamic call
    [path] (every nested call gets its own path).  A failing [assert] is [Throw].
    [mcomp], [qcomp], [rcomp], [zcomp] are the packed-monomial hooks of multiplication and division. *)
From Verif Require Import Prelude Coef Spec OrderSpec PairVec Mono MonoStruct Heap Poly Div PolyOps Groebner Zp NumSpec ZpProofs.
Local Open Scope Z_scope.

Definition path := list nat.

(** ** The modular step, over any coefficient field [K] with [prime] elements *)
Section ModGcd.
Context {C : Type} (K : coefs C) (vo : vorder).
Notation poly := (poly C).
Notation gt := (lex_gt vo).

(** get_last_var_deg, polynomial.hh 90-110. *)
Definition mlast (m : mono) : option (var * Z) :=
  match rev (md m) with [] => None | t :: _ => Some t end.
Definition last_var_deg (p : poly) : var * Z :=
  fold_left (fun '(v, d) t =>
    match mlast (fst t) with
    | None => (v, d)
    | Some (w, e) => if vo v w then (w, e)
                     else if N.eqb v w && (d <? e) then (v, e) else (v, d)
    end) p (first_var p, first_deg p).

(** [Lc_gcd.size()==1 && Lc_gcd.begin()->first.empty()] (asserts of 832 and 852) *)
Definition lc_const (Lc : poly) : outcome C :=
  match Lc with
  | [(m, c)] => if mempty m then Ok c else Throw
  | _ => Throw
  end.

Variable rcomp : poly -> poly -> outcome (option (poly * poly)).
Definition zdivrem (fuel : nat) (F G : poly) : outcome (poly * poly) :=
  pair_vec_div_rem gt mono_eqb (mono_mul vo) (is_divexact vo) K fuel rcomp F G.

(** 843-851: Euclid's algorithm; [P] is Pout, [R] is Pout_1. *)
Fixpoint mod_euclid (fuel : nat) (P R : poly) : outcome poly :=
  match fuel with
  | O => OutOfFuel
  | S f =>
      match R with
      | [] => Ok P
      | _ => qr <- zdivrem f P R ;; mod_euclid f R (snd qr)
      end
  end.
Definition mod_base (fuel : nat) (F G Lc : poly) (deg : Z) : outcome (option (poly * Z)) :=
  qr <- zdivrem fuel F G ;;
  P <- mod_euclid fuel G (snd qr) ;;
  c <- lc_const Lc ;;
  match P with
  | [] => UB
  | t :: _ =>
      let lc_inv := cmul K (cquo K (c1 K) (snd t)) c in
      let P' := map (fun u => (fst u, cmul K (snd u) lc_inv)) P in
      let deg_ := first_deg P' in
      Ok (if deg_ <=? deg then Some (P', deg_) else None)
  end.

(** 899-902: drawing a point not used before; [i] counts the draws. *)
Fixpoint draw (fuel : nat) (rnd : nat -> C) (i : nat) (used : list C) : outcome (C * nat) :=
  match fuel with
  | O => OutOfFuel
  | S f => if existsb (ceqb K (rnd i)) used then draw f rnd (S i) used else Ok (rnd i, S i)
  end.

(** 930-981: merging a new image into the table of values; [n] is num_s (already incremented). *)
Fixpoint vmerge (n : nat) (V : list (mono * list C)) : poly -> list (mono * list C) :=
  match V with
  | [] => fun P => map (fun t => (fst t, repeat (c0 K) (n - 1) ++ [snd t])) P
  | e :: V' =>
      fix go (P : poly) : list (mono * list C) :=
        match P with
        | [] => map (fun e => (fst e, snd e ++ [c0 K])) V
        | t :: P' =>
            if gt (fst t) (fst e) then (fst t, repeat (c0 K) (n - 1) ++ [snd t]) :: go P'
            else if mono_eqb (fst t) (fst e) then (fst e, snd e ++ [snd t]) :: vmerge n V' P'
            else (fst e, snd e ++ [c0 K]) :: vmerge n V' P
        end
  end.

(** 986-1004: the coefficients of the i-th Lagrange polynomial. *)
Fixpoint lin_go (prev pj inv : C) (l : list C) : list C :=
  match l with
  | [] => []
  | a :: r => cmul K (csub K prev (cmul K a pj)) inv :: lin_go a pj inv r
  end.
Definition lin_step (pi pj : C) (l : list C) : list C :=
  let inv := cquo K (c1 K) (csub K pi pj) in
  match l with
  | [] => []
  | a :: r => cmul K (cmul K (copp K a) pj) inv :: lin_go a pj inv r
  end.
Fixpoint lag_go (i j : nat) (pi : C) (pts : list C) (l : list C) : list C :=
  match pts with
  | [] => l
  | pj :: r => lag_go i (S j) pi r (if Nat.eqb i j then l else lin_step pi pj l)
  end.
Definition lag (pts : list C) (i : nat) : list C :=
  lag_go i 0 (nth i pts (c0 K)) pts (c1 K :: repeat (c0 K) (length pts - 1)).

(** 1017-1021: the coefficient of v^j. *)
Definition interp_coef (pts vec : list C) (j : nat) : C :=
  fold_left (fun s k => cadd K s (cmul K (nth k vec (c0 K)) (nth j (lag pts k) (c0 K)))) (seq 0 (length pts)) (c0 K).
(** 1011-1034 *)
Definition interp_term (v : var) (pts : list C) (e : mono * list C) : poly :=
  flat_map (fun j => let c := interp_coef pts (snd e) j in
                     if is0 K c then []
                     else [((match j with O => fst e | _ => mono_push (fst e) (v, Z.of_nat j) end), c)])
           (rev (seq 0 (length pts))).
Definition interp (v : var) (pts : list C) (V : list (mono * list C)) : poly := flat_map (interp_term v pts) V.

Variable prime : Z.
Variable srt : poly -> poly.     (* std::sort, used by the normalization inside assign *)
Variable rnd : path -> nat -> C.

(** 897-1039: the loop over evaluation points.  [rec] is the recursive call; [i] the loop counter, [ri] the
    number of draws so far. *)
Fixpoint pts_loop (n : nat) (rec : path -> poly -> poly -> poly -> Z -> outcome (option (poly * Z)))
  (pa : path) (v : var) (v_d f_d g_d : Z) (F G Lc : poly) (i : Z) (ri : nat) (used : list C)
  (deg : Z) (V : list (mono * list C)) (pts : list C) : outcome (option (poly * Z)) :=
  match n with
  | O => OutOfFuel
  | S n' =>
      if prime <=? i then Ok None
      else
        '(pt, ri') <- draw n' (rnd pa) ri used ;;
        let cont deg V pts :=
          if prime <=? wrap64 (i + v_d - Z.of_nat (length pts)) then Ok None
          else pts_loop n' rec pa v v_d f_d g_d F G Lc (i + 1) ri' (pt :: used) deg V pts in
        let F_v := p_assign K gt srt (assign1 v pt) F in
        let G_v := p_assign K gt srt (assign1 v pt) G in
        let lc_v := p_assign K gt srt (assign1 v pt) Lc in
        if (first_deg F_v =? f_d) && N.eqb (first_var F_v) (first_var F)
           && (first_deg G_v =? g_d) && N.eqb (first_var G_v) (first_var G) then
          r <- rec (n' :: pa) F_v G_v lc_v deg ;;
          match r with
          | None => cont deg V pts
          | Some (P, deg_) =>
              if deg_ <=? deg then
                let fresh := (deg_ <? deg) || (Z.of_nat (length pts) =? 0) in
                let deg' := if fresh then deg_ else deg in
                let V' := if fresh then map (fun t => (fst t, [snd t])) P else vmerge (S (length pts)) V P in
                let pts' := if fresh then [pt] else pts ++ [pt] in
                if Z.of_nat (length pts') =? v_d then Ok (Some (interp v pts' V', deg'))
                else cont deg' V' pts'
              else cont deg V pts
          end
        else cont deg V pts
  end.

(** 815-1040 [__polynomial_GCD] (Zp, lex): [None] is the return value -1, [Some (P,d)] is Pout and d. *)
Fixpoint mod_gcd (fuel : nat) (pa : path) (F G Lc : poly) (deg : Z) : outcome (option (poly * Z)) :=
  match fuel with
  | O => OutOfFuel
  | S f =>
      match F, G, Lc with
      | _ :: _, _ :: _, _ :: _ =>
          let x := first_var F in
          if negb (N.eqb x (first_var G)) then Throw
          else if N.eqb x 0 then (_ <- lc_const Lc ;; Ok (Some (Lc, 0)))
          else
            let '(fv, fd) := last_var_deg F in
            let '(gv, gd) := last_var_deg G in
            if N.eqb x fv && N.eqb x gv then mod_base f F G Lc deg
            else
              let '(v, v_d) := if N.eqb fv gv then (fv, Z.max fd gd + 1)
                               else (if vo fv gv then gv else fv, 1) in
              pts_loop f (mod_gcd f) pa v v_d (first_deg F) (first_deg G) F G Lc 0 0 [] deg [] []
      | _, _, _ => Throw
      end
  end.
End ModGcd.

(** ** Integer polynomials *)
Section PGcd.
Context (vo : vorder).
Notation poly := (poly Z).
Notation gt := (lex_gt vo).
Variable msrt : list (var * Z) -> list (var * Z).
Variable srt : forall C : Type, Mono.poly C -> Mono.poly C.
Variable mcomp qcomp : poly -> poly -> outcome (option poly).
Variable rcomp : poly -> poly -> outcome (option (poly * poly)).
Variable zcomp : forall p (Hp : modulus p), Mono.poly (zpc p) -> Mono.poly (zpc p) -> outcome (option (Mono.poly (zpc p) * Mono.poly (zpc p))).
Record pmod := PMod { pm : Z; pm_ok : modulus pm }.
Variable ps : nat -> pmod.
Variable rnd : path -> nat -> Z.

Definition pdiv (fuel : nat) (F G : poly) : outcome poly :=
  pair_vec_div gt mono_eqb (mono_mul vo) (is_divexact vo) Zc fuel qcomp F G.
Definition pdivrem (fuel : nat) (F G : poly) : outcome (poly * poly) :=
  pair_vec_div_rem gt mono_eqb (mono_mul vo) (is_divexact vo) Zc fuel rcomp F G.
Definition pmul (F G : poly) : outcome poly := p_mul (lexS vo) Zc mcomp F G.

(** ** cont, polynomial_gcd.hh 573-640.  [g k] is the call polynomial_GCD made at position [k]. *)
Definition strip (d : Z) (m : mono) : mono := re_deg (if d =? 0 then md m else tl (md m)).
Definition deg_first (v : var) (m : mono) : Z :=
  match md m with (w, e) :: _ => if N.eqb w v then e else 0 | [] => 0 end.
(** the condition of 585-586 *)
Definition same_group (v : var) (d : Z) (m : mono) : bool :=
  match md m with
  | (w, e) :: _ => (N.eqb w v && (e =? d)) || (negb (N.eqb w v) && (d =? 0))
  | [] => d =? 0
  end.
Fixpoint cont_go (g : nat -> poly -> poly -> outcome poly) (v : var) (deg tmp_deg : Z) (tmp cont : poly) (F : poly)
  : outcome poly :=
  match F with
  | [] => if tmp_deg =? deg then Ok tmp else g 0%nat cont tmp
  | t :: r =>
      if same_group v tmp_deg (fst t) then
        cont_go g v deg tmp_deg (tmp ++ [(strip tmp_deg (fst t), snd t)]) cont r
      else
        c <- (if tmp_deg =? deg then Ok tmp else g (S (length r)) cont tmp) ;;
        let d' := deg_first v (fst t) in
        cont_go g v deg d' [(strip d' (fst t), snd t)] c r
  end.
Definition cont_with (g : nat -> poly -> poly -> outcome poly) (F : poly) : outcome poly :=
  cont_go g (first_var F) (first_deg F) (first_deg F) [] [] F.

(** ** The CRT loop *)
(** 322-329: symmetric residues of the first image ([%] truncates, [/] truncates) *)
Definition symm1 (M c : Z) : Z :=
  let c := Z.rem c M in if c >? Z.quot M 2 then c - M else c.
(** 383-395 *)
Definition symm2 (M c : Z) : Z :=
  let c := Z.rem c M in
  if c >? Z.quot M 2 then c - M else if c <? Z.quot (- M) 2 then c + M else c.
(** 337-381: merging Pout_ and the new image [Q]; [inv] is tmp_inv.number(). *)
Section Crt.
Context {p : Z} (inv M : Z).
Definition crt_l (t : mono * Z) : mono * Z := (fst t, snd t - snd t * inv * M).
Definition crt_r (u : mono * zpc p) : mono * Z := (fst u, proj1_sig (snd u) * inv * M).
Fixpoint crt_merge (P : poly) : Mono.poly (zpc p) -> poly :=
  match P with
  | [] => fun Q => map crt_r Q
  | t :: P' =>
      fix go (Q : Mono.poly (zpc p)) : poly :=
        match Q with
        | [] => map crt_l P
        | u :: Q' =>
            if gt (fst t) (fst u) then crt_l t :: crt_merge P' Q
            else if mono_eqb (fst t) (fst u) then
              (fst u, snd t + (proj1_sig (snd u) - snd t) * inv * M) :: crt_merge P' Q'
            else crt_r u :: go Q'
        end
  end.
End Crt.

(** 297-448.  [gcd] is the recursive call (for cont), [i] indexes the primes, [M] is Pout_prime, [d] is Pout_d, [P] is
    Pout_.  If the merged polynomial has a zero coefficient the model stops (OutOfFuel): this can only happen
    after a failed trial division, when Pout_ has been replaced by its primitive part (398-401, 446)
    although Pout_prime still is the old modulus; the code would then continue with a polynomial that
    is not in normal form. *)
Fixpoint crt_loop (n : nat) (gcd : path -> poly -> poly -> outcome poly) (pa : path) (F G lc_gcd cont_gcd : poly)
  (i : nat) (M d : Z) (P : poly) : outcome poly :=
  match n with
  | O => OutOfFuel
  | S n' =>
      let p := pm (ps i) in
      let Hp := pm_ok (ps i) in
      match F, G with
      | tf :: _, tg :: _ =>
          if (Z.rem (snd tf) p =? 0) || (Z.rem (snd tg) p =? 0) then
            crt_loop n' gcd pa F G lc_gcd cont_gcd (S i) M d P
          else
            let K := Zpc p Hp in
            r <- mod_gcd K vo (zcomp p Hp) p (srt (zpc p)) (fun pa k => zpc_of p Hp (rnd pa k)) n' (n' :: pa)
                   (p_mod K (zpc_of p Hp) F) (p_mod K (zpc_of p Hp) G) (p_mod K (zpc_of p Hp) lc_gcd) d ;;
            match r with
            | None => crt_loop n' gcd pa F G lc_gcd cont_gcd (S i) M d P
            | Some (Q, d') =>
                if d' <? d then
                  let Z1 := p_convert Zc vo gt msrt (srt Z) (@proj1_sig _ _) Q in
                  crt_loop n' gcd pa F G lc_gcd cont_gcd (S i) p d' (map (fun t => (fst t, symm1 p (snd t))) Z1)
                else
                  inv <- zp_inv p (M mod p) ;;
                  let M' := M * p in
                  let T := map (fun t => (fst t, symm2 M' (snd t))) (crt_merge inv M P Q) in
                  if existsb (fun t => snd t =? 0) T then OutOfFuel
                  else if pv_equal_to mono_eqb Zc T P then
                    if N.eqb (first_var P) (first_var F) then
                      c <- cont_with (fun k => gcd [k; n']) P ;;
                      H <- pdiv n' T c ;;
                      '(_, R) <- pdivrem n' F H ;;
                      match R with
                      | [] =>
                          '(_, R') <- pdivrem n' G H ;;
                          match R' with
                          | [] => pmul H cont_gcd
                          | _ => crt_loop n' gcd pa F G lc_gcd cont_gcd (S i) M' d H
                          end
                      | _ => crt_loop n' gcd pa F G lc_gcd cont_gcd (S i) M' d H
                      end
                    else Ok cont_gcd
                  else crt_loop n' gcd pa F G lc_gcd cont_gcd (S i) M' d T
            end
      | _, _ => UB
      end
  end.

(** 256-275: one operand has a single term *)
Definition single_gcd (t : mono * Z) (r : poly) : mono * Z :=
  fold_left (fun a u => (mono_gcd vo (fst a) (fst u), Z.gcd (snd a) (snd u))) r t.
Definition coeff_gcd (l : poly) : Z := fold_left (fun c u => Z.gcd c (snd u)) l 0.

Definition int64_max : Z := 2 ^ 63 - 1.

(** 277-301: the loop that makes the first variables equal: [inl P] returns P, [inr (F,G)] goes on. *)
Fixpoint eq_loop (n : nat) (gcd : path -> poly -> poly -> outcome poly) (F G : poly) : outcome (poly + poly * poly) :=
  match n with
  | O => OutOfFuel
  | S n' =>
      let ffv := first_var F in
      let gfv := first_var G in
      if negb (N.eqb ffv gfv) || N.eqb ffv 0 then
        if N.eqb ffv 0 || N.eqb gfv 0 then Ok (inl [(mono1, coeff_gcd (F ++ G))])
        else if vo ffv gfv then (F' <- cont_with (fun k => gcd [k; n']) F ;; eq_loop n' gcd F' G)
        else (G' <- cont_with (fun k => gcd [k; n']) G ;; eq_loop n' gcd F G')
      else Ok (inr (F, G))
  end.

(** 247-450 [polynomial_GCD] (ZZ, lex). *)
Fixpoint poly_gcd (fuel : nat) (pa : path) (F G : poly) : outcome poly :=
  match fuel with
  | O => OutOfFuel
  | S f =>
      let rec k l a b := poly_gcd f (l ++ k :: pa) a b in
      match F, G with
      | [], _ => Ok G
      | _, [] => Ok F
      | tf :: rf, tg :: rg =>
          if (match rf with [] => true | _ => false end) || (match rg with [] => true | _ => false end) then
            Ok [single_gcd tf (rf ++ G)]
          else
            r <- eq_loop f (rec 0%nat) F G ;;
            match r with
            | inl P => Ok P
            | inr (F, G) =>
                F_cont <- cont_with (fun k => rec 1%nat [k]) F ;;
                G_cont <- cont_with (fun k => rec 2%nat [k]) G ;;
                cont_gcd <- rec 3%nat [] F_cont G_cont ;;
                F <- pdiv f F F_cont ;;
                G <- pdiv f G G_cont ;;
                lc_gcd <- rec 4%nat [] (leadcoeff_lex F) (leadcoeff_lex G) ;;
                crt_loop f (rec 5%nat) (6%nat :: pa) F G lc_gcd cont_gcd 0 0 int64_max []
            end
      end
  end.

(** ** cont as called by the user (573-640), pp (681-696) *)
Definition poly_cont (fuel : nat) (pa : path) (F : poly) : outcome poly := cont_with (fun k => poly_gcd fuel (k :: pa)) F.
Definition poly_pp (fuel : nat) (pa : path) (f : poly) : outcome poly :=
  match f with
  | [] => Ok []
  | _ => if is_number f then Ok [(mono1, 1)]
         else (c <- poly_cont fuel pa f ;; qr <- pdivrem fuel f c ;; Ok (fst qr))
  end.
End PGcd.
