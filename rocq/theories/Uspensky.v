(** * Model of the real root isolation (realroot.cc, realroot.hh).

    Univariate polynomials over ZZ are lists of (exponent, coefficient) in decreasing order of the exponent
    (upolynomial_<ZZ>); ZZ and QQ are taken by value (C01-C04), [pow] of a polynomial is the model of C15. *)
From Verif Require Import Prelude Coef OrderSpec PairVec Heap MonoStruct Poly PolyOps QQ QQProofs.
Local Open Scope Z_scope.

Definition uz := list (Z * Z).

(** realroot.cc 8: the constant polynomial x+1. *)
Definition xp1 : uz := [(1, 1); (0, 1)].
(** [pow(p, n)] and [g + g_] on upolynomial_<ZZ> (polynomial_.hh 38-70, basic_polynomial.hh 224-240); the loop of
    pair_vec_power runs once per bit of the int64_t exponent. *)
Definition upow (p : uz) (n : Z) : outcome uz := p_pow uniS Zc no_compress 64 (Some 1) p n.
Definition uadd (p q : uz) : uz := p_add uniS Zc p q.
Definition umulz (p q : uz) : outcome uz := p_mul uniS Zc no_compress p q.
(** [for (auto &j:g_) j.second*=c;] *)
Definition uscal (c : Z) (p : uz) : uz := map (fun t => (fst t, snd t * c)) p.
(** [G.front().first.deg()] of a non-empty G *)
Definition udeg (p : uz) : Z := match p with [] => 0 | t :: _ => fst t end.

(** realroot.cc 11-25 [coeffsignchanges]. *)
Fixpoint coeffsignchanges (G : uz) : nat :=
  match G with
  | [] => O
  | t1 :: G' =>
      match G' with
      | [] => O
      | t2 :: _ => (if Z.sgn (snd t1) * Z.sgn (snd t2) <? 0 then 1 else 0) + coeffsignchanges G'
      end
  end.

(** realroot.cc 26-42 [_upolynomial_1toinf]: the loop over the terms of G. *)
Fixpoint to_inf_loop (m : Z) (G g : uz) : outcome uz :=
  match G with
  | [] => Ok g
  | (e, c) :: G' => g_ <- upow xp1 (m - e) ;; to_inf_loop m G' (uadd g (uscal c g_))
  end.
Definition to_inf (G : uz) : outcome uz := match G with [] => Ok G | _ => to_inf_loop (udeg G) G [] end.
(** realroot.cc 43-54 [_upolynomial_Bto1]. *)
Definition b_to_1 (G : uz) (B : Z) : uz := map (fun t => (fst t, snd t * B ^ fst t)) G.
(** realroot.cc 55-68 [_upolynomial_01to012]. *)
Definition half_left (G : uz) : uz := map (fun t => (fst t, snd t * 2 ^ (udeg G - fst t))) G.
(** realroot.cc 70-89 [_upolynomial_01to121]. *)
Fixpoint half_right_loop (m : Z) (G g : uz) : outcome uz :=
  match G with
  | [] => Ok g
  | (e, c) :: G' => g_ <- upow xp1 e ;; half_right_loop m G' (uadd g (uscal (c * 2 ^ (m - e)) g_))
  end.
Definition half_right (G : uz) : outcome uz := match G with [] => Ok G | _ => half_right_loop (udeg G) G [] end.
(** realroot.cc 218-242 [_upolynomial_Rtoab]. *)
Fixpoint r_to_ab_loop (m : Z) (pnum pden G g : uz) : outcome uz :=
  match G with
  | [] => Ok g
  | (e, c) :: G' =>
      d <- upow pden (m - e) ;; n <- upow pnum e ;; g_ <- umulz d n ;;
      r_to_ab_loop m pnum pden G' (uadd g (uscal c g_))
  end.
Definition u_is_number (G : uz) : bool := match G with [] => true | [t] => fst t =? 0 | _ => false end.
Definition r_to_ab (G : uz) (a b : qqc) : outcome uz :=
  if u_is_number G then Ok G
  else
    let an := qnum (proj1_sig a) in let ad := qden (proj1_sig a) in
    let bn := qnum (proj1_sig b) in let bd := qden (proj1_sig b) in
    let g := Z.gcd ad bd in let den := Z.lcm ad bd in
    let a1 := Z.quot (an * bd) g in let b1 := Z.quot (bn * ad) g in
    (* upolynomial from an initializer list: terms with a zero coefficient are dropped (upolynomial.hh, normalization) *)
    let nz := filter (fun t : Z * Z => negb (snd t =? 0)) in
    r_to_ab_loop (udeg G) (nz [(1, a1); (0, b1)]) (nz [(1, den); (0, den)]) G [].

(** [assign<QQ,ZZ,QQ>(G,a)] (upolynomial.hh 74-84) *)
Definition uassign (G : uz) (a : qqc) : qqc := u_assign QQc (map (fun t => (fst t, qqc_int (snd t))) G) a.
Definition is_root (G : uz) (a : qqc) : bool := qqc_eqb (uassign G a) (qqc_int 0).
Definition q_half : qqc := qqc_quo (qqc_int 1) (qqc_int 2).
Definition q_mid (a b : qqc) : qqc := qqc_quo (qqc_add a b) (qqc_int 2).
Definition q_ltb (a b : qqc) : bool := qq_ltb (proj1_sig a) (proj1_sig b).

(** realroot.cc 190-217 [uspensky_shrink]; B and E are reference parameters: the result is (returned bool, B, E). *)
Fixpoint shrink (fuel : nat) (G : uz) (B E : qqc) (lb rb : bool) : outcome (bool * qqc * qqc) :=
  match fuel with
  | O => OutOfFuel
  | Datatypes.S f =>
      G_ <- to_inf G ;;
      if Nat.eqb (coeffsignchanges G_) 0 then Ok (false, B, E)
      else if q_ltb (qqc_sub E B) (qqc_int 1) && (lb && rb) then Ok (true, B, E)
      else
        let m := q_mid E B in
        if is_root G q_half then Ok (true, m, m)
        else
          '(b1, B1, m1) <- shrink f (half_left G) B m lb true ;;
          if (b1 : bool) then Ok (true, B1, m1)
          else
            Gr <- half_right G ;;
            '(_, m2, E2) <- shrink f Gr m1 E true rb ;;
            Ok (true, m2, E2)
  end.

(** realroot.cc 91-114 [subuspensky] *)
Fixpoint subuspensky (fuel : nat) (G : uz) (l : list (qqc * qqc)) (B E : qqc) : outcome (list (qqc * qqc)) :=
  match fuel with
  | O => OutOfFuel
  | Datatypes.S f =>
      G_ <- to_inf G ;;
      let v := coeffsignchanges G_ in
      if Nat.eqb v 0 then Ok l
      else if Nat.eqb v 1 then
        '(_, B1, E1) <- shrink f G B E false false ;; Ok (l ++ [(B1, E1)])
      else
        let mid := q_mid B E in
        l1 <- subuspensky f (half_left G) l B mid ;;
        let l2 := if is_root G q_half then l1 ++ [(mid, mid)] else l1 in
        Gr <- half_right G ;;
        subuspensky f Gr l2 mid E
  end.

(** realroot.cc 116-141 [RealRootBound]; [sizeinbase(B,2)-1] is the binary logarithm of the positive B. *)
Definition max_abs (G : uz) : Z := fold_left (fun b t => if Z.abs (snd t) >? b then Z.abs (snd t) else b) (tl G)
  (match G with [] => 0 | t :: _ => Z.abs (snd t) end).
Definition root_bound (G : uz) : Z :=
  match G with
  | [] => 0
  | t :: _ =>
      let B := Z.quot (max_abs G) (Z.abs (snd t)) + 3 in
      let C := 2 ^ Z.log2 B in
      if B =? C then B else 2 * C
  end.

(** realroot.cc 142-160 [uspensky(const upolynomial_<ZZ>&)] *)
Definition neg_item (i : qqc * qqc) : qqc * qqc := (qqc_neg (snd i), qqc_neg (fst i)).
Definition uspensky (fuel : nat) (G : uz) : outcome (list (qqc * qqc)) :=
  if match G with [] => true | t :: _ => fst t =? 0 end then Ok []
  else
    let B := root_bound G in
    l1 <- subuspensky fuel (b_to_1 G (- B)) [] (qqc_int 0) (qqc_int B) ;;
    l2 <- subuspensky fuel (b_to_1 G B) [] (qqc_int 0) (qqc_int B) ;;
    Ok (map neg_item (rev l1) ++ l2).

(** realroot.cc 436-493 [subuspensky] for several polynomials.  The vectors G and I of the code, always of the same
    length, are one list of pairs; the vectors l and index are one list of triples. *)
Definition item := (qqc * qqc * nat)%type.
Fixpoint mapM_inf (G : list (uz * nat)) : outcome (list nat) :=
  match G with
  | [] => Ok []
  | (g, _) :: G' => g_ <- to_inf g ;; vs <- mapM_inf G' ;; Ok (coeffsignchanges g_ :: vs)
  end.
(** realroot.cc 443-461: how many counts are 0, are 1, and the last position with count 1 *)
Definition count_v (k : nat) (vs : list nat) : nat := length (filter (Nat.eqb k) vs).
Fixpoint last_one (i : nat) (vs : list nat) (i_ : nat) : nat :=
  match vs with
  | [] => i_
  | v :: vs' => last_one (Datatypes.S i) vs' (if Nat.eqb v 1 then i else i_)
  end.
(** realroot.cc 473-487: the first polynomial with the root 1/2, and the counts after the loop *)
Fixpoint mid_loop (mid : qqc) (G : list (uz * nat)) (vs : list nat) : list item * list nat :=
  match G, vs with
  | (g, i) :: G', v :: vs' =>
      if is_root g q_half then ([(mid, mid, i)], (if Nat.eqb v 1 then O else v) :: vs')
      else (let '(l, w) := mid_loop mid G' vs' in (l, v :: w))
  | _, _ => ([], vs)
  end.
(** the polynomials with a positive count *)
Fixpoint keep (G : list (uz * nat)) (vs : list nat) : list (uz * nat) :=
  match G, vs with
  | g :: G', v :: vs' => if Nat.ltb 0 v then g :: keep G' vs' else keep G' vs'
  | _, _ => []
  end.
Fixpoint mapM_right (G : list (uz * nat)) : outcome (list (uz * nat)) :=
  match G with
  | [] => Ok []
  | (g, i) :: G' => g_ <- half_right g ;; r <- mapM_right G' ;; Ok ((g_, i) :: r)
  end.
Fixpoint subuspensky_v (fuel : nat) (G : list (uz * nat)) (l : list item) (B E : qqc) : outcome (list item) :=
  match fuel with
  | O => OutOfFuel
  | Datatypes.S f =>
      vs <- mapM_inf G ;;
      let v0 := count_v 0 vs in
      let v1 := count_v 1 vs in
      if Nat.eqb v0 (length G) then Ok l
      else if Nat.eqb v1 1 && Nat.eqb v0 (length G - 1) then
        match nth_error G (last_one 0 vs 0) with
        | Some (g, i) => '(_, B1, E1) <- shrink f g B E false false ;; Ok (l ++ [(B1, E1, i)])
        | None => UB
        end
      else
        let mid := q_mid B E in
        let '(lm, vs') := mid_loop mid G vs in
        let G1 := keep G vs' in
        l1 <- subuspensky_v f (map (fun gi => (half_left (fst gi), snd gi)) G1) l B mid ;;
        Gr <- mapM_right G1 ;;
        subuspensky_v f Gr (l1 ++ lm) mid E
  end.

(** realroot.cc 495-571 [uspensky(std::vector<upolynomial_<ZZ>>)] *)
Fixpoint non_numbers (i : nat) (G : list uz) : list (uz * nat) :=
  match G with
  | [] => []
  | g :: G' => if u_is_number g then non_numbers (Datatypes.S i) G' else (g, i) :: non_numbers (Datatypes.S i) G'
  end.
Definition max_bound (G : list (uz * nat)) : Z :=
  fold_left (fun b gi => if root_bound (fst gi) >? b then root_bound (fst gi) else b) G 0.
Fixpoint zero_item (G : list (uz * nat)) : list item :=
  match G with
  | [] => []
  | (g, i) :: G' => if is_root g (qqc_int 0) then [(qqc_int 0, qqc_int 0, i)] else zero_item G'
  end.
Definition neg_itemv (t : item) : item := (qqc_neg (snd (fst t)), qqc_neg (fst (fst t)), snd t).
Definition uspensky_v (fuel : nat) (Gs : list uz) : outcome (list item) :=
  let G := non_numbers 0 Gs in
  match G with
  | [] => Ok []
  | _ =>
      let B := max_bound G in
      l1 <- subuspensky_v fuel (map (fun gi => (b_to_1 (fst gi) (- B), snd gi)) G) [] (qqc_int 0) (qqc_int B) ;;
      l2 <- subuspensky_v fuel (map (fun gi => (b_to_1 (fst gi) B, snd gi)) G) [] (qqc_int 0) (qqc_int B) ;;
      Ok (map neg_itemv (rev l1) ++ zero_item G ++ l2)
  end.

(** ** Isolated roots (realroot.cc 573-630, 700-723) *)
Record uroot := Uroot { ur_poly : uz; ur_left : qqc; ur_right : qqc }.
Definition q_sgn (a : qqc) : Z := qq_sgn (proj1_sig a).
Definition q_is0 (a : qqc) : bool := qqc_eqb a (qqc_int 0).
(** realroot.cc 575-613 [_uroot_check(uroot*, const QQ&)] *)
Definition uroot_check (r : uroot) (mid : qqc) : outcome uroot :=
  if q_ltb mid (ur_left r) || q_ltb (ur_right r) mid || qqc_eqb (ur_left r) (ur_right r) then Ok r
  else
    let rig := uassign (ur_poly r) (ur_right r) in
    let m := uassign (ur_poly r) mid in
    let lef := uassign (ur_poly r) (ur_left r) in
    let setl := Uroot (ur_poly r) mid (ur_right r) in
    let setr := Uroot (ur_poly r) (ur_left r) mid in
    if q_is0 m then Ok (Uroot (ur_poly r) mid mid)
    else if q_is0 rig then
      (if q_is0 lef then
         (p <- r_to_ab (ur_poly r) (ur_left r) mid ;;
          if Nat.eqb (coeffsignchanges p) 0 then Ok setl else Ok setr)
       else if q_sgn m =? q_sgn lef then Ok setl else Ok setr)
    else if q_sgn m =? q_sgn rig then Ok setr
    else Ok setl.
(** realroot.cc 700-723 [uroot::comp(uroot*, const QQ&)] on a finite root: 1 if r<q, 0 if r=q, -1 if r>q, and the
    refined r *)
Definition uroot_comp_q (r : uroot) (q : qqc) : outcome (Z * uroot) :=
  if qqc_eqb q (ur_left r) && qqc_eqb (ur_left r) (ur_right r) then Ok (0, r)
  else if negb (q_ltb (ur_left r) q) then Ok (-1, r)
  else if negb (q_ltb q (ur_right r)) then Ok (1, r)
  else if q_is0 (uassign (ur_poly r) q) then Ok (0, Uroot (ur_poly r) q q)
  else
    r' <- uroot_check r q ;;
    if negb (q_ltb (ur_left r') q) then Ok (-1, r') else Ok (1, r').
