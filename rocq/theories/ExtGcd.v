(** * Model of the extended gcd: polynomial_GCD(F, G, s, t) (polynomial_gcd.hh 451-560, 698-812). *)
From Verif Require Import Prelude Coef Spec OrderSpec PairVec Mono MonoStruct Heap Poly Div PolyOps Prem Zp NumSpec ZpProofs Dense DenseSparse Gcd UGcd.
Local Open Scope Z_scope.

Section Step.
Context {C : Type} (K : coefs C) (srt : list (Z * C) -> list (Z * C)).
Notation up := (list (Z * C)).
(** normalization, basic_polynomial.hh, of an upolynomial *)
Definition unorma (p : up) : up := pv_normalization (m_gt uniS) (m_eq uniS) K srt p.
(** for (auto& term : p) term.second *= c; p.normalization() *)
Definition uscale (c : C) (p : up) : up := unorma (map (fun t => (fst t, cmul K (snd t) c)) p).
(** tmp = q * s1; s2 = s0 - tmp; s2.normalization() *)
Definition ustep (q s0 s1 : up) : outcome up :=
  m <- p_mul uniS K nohook2 q s1 ;; Ok (unorma (p_sub uniS K s0 m)).
End Step.

(** ** upolynomial_<Zp>, polynomial_gcd.hh 698-742.  The asserts on empty operands are exceptions. *)
Section ZpExt.
Context (p : Z) (Hp : modulus p).
Notation K := (Zpc p Hp).
Notation up := (list (Z * zpc p)).
Variable srt : up -> up.
Fixpoint uext_loop (fuel : nat) (r0 r1 s0 s1 t0 t1 : up) : outcome (up * up * up) :=
  match r1 with
  | [] => Ok (r0, s0, t0)
  | _ =>
      match fuel with
      | O => OutOfFuel
      | S f =>
          '(q, r2) <- pair_vec_div_rem (m_gt uniS) (m_eq uniS) (m_mul uniS) (m_div uniS) K f nohook2 r0 r1 ;;
          s2 <- ustep K srt q s0 s1 ;;
          t2 <- ustep K srt q t0 t1 ;;
          uext_loop f r1 r2 s1 s2 t1 t2
      end
  end.
Definition uone : up := [(0, c1 K)].
Definition uzp_ext (fuel : nat) (F G : up) : outcome (up * up * up) :=
  match F, G with
  | _ :: _, _ :: _ =>
      '(r, s, t) <- uext_loop fuel F G uone [] [] uone ;;
      match r with
      | [] => Throw
      | l :: _ =>
          i <- zp_inv p (proj1_sig (snd l)) ;;
          let c := zpc_of p Hp i in
          Ok (uscale K srt c r, uscale K srt c s, uscale K srt c t)
      end
  | _, _ => Throw
  end.
End ZpExt.

(** ** upolynomial_<ZZ>, polynomial_gcd.hh 744-812 *)
Section ZZExt.
Variable srt : upz -> upz.
Definition uext_pow (c : Z) (d : Z) : Z := Nat.iter (Z.to_nat d) (Z.mul c) 1.
Fixpoint uzz_loop (fuel : nat) (r0 r1 s0 s1 t0 t1 : upz) : outcome (upz * upz * upz) :=
  match r1 with
  | [] => Ok (r0, s0, t0)
  | l :: _ =>
      match fuel with
      | O => OutOfFuel
      | S f =>
          let lc_pow := uext_pow (snd l) (udeg r0 - udeg r1 + 1) in
          '(q, r2) <- udivrem f (uscale Zc srt lc_pow r0) r1 ;;
          s2 <- ustep Zc srt q (uscale Zc srt lc_pow s0) s1 ;;
          t2 <- ustep Zc srt q (uscale Zc srt lc_pow t0) t1 ;;
          uzz_loop f r1 r2 s1 s2 t1 t2
      end
  end.
Definition uneg (p : upz) : upz := unorma Zc srt (map (fun t => (fst t, - snd t)) p).
Definition uzz_ext (fuel : nat) (F G : upz) : outcome (upz * upz * upz) :=
  match F, G with
  | _ :: _, _ :: _ =>
      '(r, s, t) <- uzz_loop fuel F G [(0, 1)] [] [] [(0, 1)] ;;
      match r with
      | [] => Throw
      | l :: _ => Ok (if snd l <? 0 then (uneg r, uneg s, uneg t) else (r, s, t))
      end
  | _, _ => Throw
  end.
End ZZExt.

(** ** polynomial_<ZZ, lex>, polynomial_gcd.hh 451-560 *)
Section LexExt.
Context (vo : vorder).
Notation S := (lexS vo).
Notation mp := (poly Z).
Context (compress : mp -> mp -> outcome (option mp)) (compress_v : var -> mp -> mp -> outcome (option mp)).
Context (ms1 : var -> list (var * Z) -> list (var * Z)) (ms2 : list (var * Z) -> list (var * Z)) (s1 : var -> mp -> mp) (s2 : mp -> mp).
Definition mnorm (p : mp) : mp := pv_normalization (m_gt S) (m_eq S) Zc s2 p.
(** the lambda make_const, 464-469 *)
Definition make_const (c : Z) : mp := if c =? 0 then [] else [(mono1, c)].
(** 489-499: the extended Euclidean algorithm on integers; ZZ operator/ truncates *)
Fixpoint zext_loop (fuel : nat) (r0 r1 s0 s1 t0 t1 : Z) : outcome (Z * Z * Z) :=
  if r1 =? 0 then Ok (r0, s0, t0)
  else match fuel with
       | O => OutOfFuel
       | Datatypes.S f => let q := Z.quot r0 r1 in zext_loop f r1 (r0 - q * r1) s1 (s0 - q * s1) t1 (t0 - q * t1)
       end.
(** 475-505 *)
Definition ext_numbers (fuel : nat) (a b : Z) : outcome (mp * mp * mp) :=
  let g := Z.gcd (Z.abs a) (Z.abs b) in
  if g =? Z.abs a then Ok (make_const g, make_const (if a >? 0 then 1 else -1), make_const 0)
  else if g =? Z.abs b then Ok (make_const g, make_const 0, make_const (if b >? 0 then 1 else -1))
  else
    '(r, s, t) <- zext_loop fuel a b 1 0 0 1 ;;
    let '(r, s, t) := if r <? 0 then (- r, - s, - t) else (r, s, t) in
    Ok (make_const r, make_const s, make_const t).
(** 508-510: the variable; serial 0 is the null variable *)
Definition ext_var (F G : mp) : var :=
  let v := first_var F in
  if N.eqb v 0 || (negb (N.eqb (first_var G) 0) && vo v (first_var G)) then first_var G else v.
(** 530-536 *)
Fixpoint lc_power (k : nat) (acc lc : mp) : outcome mp :=
  match k with
  | O => Ok acc
  | Datatypes.S k' => m <- p_mul S Zc compress acc lc ;; lc_power k' (mnorm m) lc
  end.
(** 539-542: lc_pow * s0 - q * s1 *)
Definition mext_step (l q s0 s1 : mp) : outcome mp :=
  a <- p_mul S Zc compress l s0 ;; b <- p_mul S Zc compress q s1 ;; Ok (mnorm (p_sub S Zc a b)).
(** 522-548 *)
Fixpoint mext_loop (fuel : nat) (v : var) (r0 r1 s0 sa t0 ta : mp) : outcome (mp * mp * mp) :=
  match r1 with
  | [] => Ok (r0, s0, t0)
  | _ =>
      match fuel with
      | O => OutOfFuel
      | Datatypes.S f =>
          '(q, rem) <- pquo_lex Zc vo compress (compress_v v) (ms1 v) ms2 (s1 v) s2 f r0 r1 v true ;;
          let lc := fst (leadcoeff_v Zc vo (m_gt S) s2 r1 v) in
          let k := p_degree_lex vo r0 v - p_degree_lex vo r1 v + 1 in
          l <- lc_power (Z.to_nat k) (make_const 1) lc ;;
          sb <- mext_step l q s0 sa ;;
          tb <- mext_step l q t0 ta ;;
          mext_loop f v r1 rem sa sb ta tb
      end
  end.
Definition mext_neg (p : mp) : outcome mp := m <- p_mul S Zc compress p (make_const (-1)) ;; Ok (mnorm m).
Definition mext (fuel : nat) (F G : mp) : outcome (mp * mp * mp) :=
  match F, G with
  | [], _ => Ok (G, make_const 0, make_const 1)
  | _, [] => Ok (F, make_const 1, make_const 0)
  | tf :: _, tg :: _ =>
      if is_number F && is_number G then ext_numbers fuel (snd tf) (snd tg)
      else
        let v := ext_var F G in
        if N.eqb v 0 then Ok (F, make_const 1, make_const 0)
        else
          '(r, s, t) <- mext_loop fuel v F G (make_const 1) (make_const 0) (make_const 0) (make_const 1) ;;
          match r with
          | l :: _ => if snd l <? 0 then (r' <- mext_neg r ;; s' <- mext_neg s ;; t' <- mext_neg t ;; Ok (r', s', t')) else Ok (r, s, t)
          | [] => Ok (r, s, t)
          end
  end.
End LexExt.
