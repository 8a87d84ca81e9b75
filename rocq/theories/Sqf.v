(** * Model of is_squarefree and squarefreefactorize for integer polynomials (polynomial_gcd.hh 73-158).

    Multiplicities (uint64_t) are natural numbers; every gcd call gets its own path of random draws. *)
From Verif Require Import Prelude Coef Spec OrderSpec PairVec Mono MonoStruct Heap Poly Div PolyOps Groebner Zp NumSpec ZpProofs Gcd.
Local Open Scope Z_scope.

Section Sqf.
Context (vo : vorder).
Notation poly := (poly Z).
Notation gt := (lex_gt vo).
Variable msrt : list (var * Z) -> list (var * Z).
Variable srt : forall C : Type, Mono.poly C -> Mono.poly C.
Variable mcomp qcomp : poly -> poly -> outcome (option poly).
Variable rcomp : poly -> poly -> outcome (option (poly * poly)).
Variable zcomp : forall p (Hp : modulus p), Mono.poly (zpc p) -> Mono.poly (zpc p) -> outcome (option (Mono.poly (zpc p) * Mono.poly (zpc p))).
Variable ps : nat -> pmod.
Variable rnd : path -> nat -> Z.
Notation gcd := (poly_gcd vo msrt srt mcomp qcomp rcomp zcomp ps rnd).
Notation cont := (poly_cont vo msrt srt mcomp qcomp rcomp zcomp ps rnd).
Notation div := (pdiv vo qcomp).
Notation eqp := (pv_equal_to mono_eqb Zc).

(** 73-90 [is_squarefree] (lex) *)
Fixpoint is_squarefree (fuel : nat) (pa : path) (F : poly) : outcome bool :=
  match fuel with
  | O => OutOfFuel
  | S f =>
      match F with
      | [] => Ok false
      | _ =>
          if is_number F then Ok true
          else
            f_cont <- cont f (0%nat :: pa) F ;;
            b <- is_squarefree f (1%nat :: pa) f_cont ;;
            if (b : bool) then
              F_ <- div f F f_cont ;;
              F_1 <- gcd f (2%nat :: pa) F_ (p_derivative_lex Zc F_) ;;
              Ok (is_number F_1)
            else Ok false
      end
  end.

(** 112-141: the loop; [i] is the loop counter, [F_] and [F_3] the variables of these names. *)
Fixpoint sqf_loop (n : nat) (pa : path) (i : nat) (F_ F_3 : poly) (lst : list (poly * nat)) : outcome (list (poly * nat)) :=
  match n with
  | O => OutOfFuel
  | S n' =>
      F_1 <- gcd n' (n' :: pa) F_ (p_derivative_lex Zc F_) ;;
      if is_number F_1 then
        l <- (if (Nat.ltb 1 i) && negb (eqp F_ F_3) then (q <- div n' F_3 F_ ;; Ok (lst ++ [(q, (i - 1)%nat)])) else Ok lst) ;;
        Ok (l ++ [(F_, i)])
      else
        F_2 <- div n' F_ F_1 ;;
        if negb (eqp F_2 F_3) then
          l <- (if Nat.ltb 1 i then (q <- div n' F_3 F_2 ;; Ok (lst ++ [(q, (i - 1)%nat)])) else Ok lst) ;;
          sqf_loop n' pa (S i) F_1 F_2 l
        else sqf_loop n' pa (S i) F_1 F_3 lst
  end.

(** 98-143 [squarefreefactorize] (lex) *)
Fixpoint squarefreefactorize (fuel : nat) (pa : path) (F : poly) : outcome (list (poly * nat)) :=
  match fuel with
  | O => OutOfFuel
  | S f =>
      match F with
      | [] => Ok []
      | _ =>
          if is_number F then Ok [(F, 1%nat)]
          else
            f_cont <- cont f (0%nat :: pa) F ;;
            F_ <- div f F f_cont ;;
            lst <- squarefreefactorize f (1%nat :: pa) f_cont ;;
            sqf_loop f (2%nat :: pa) 1 F_ [] lst
      end
  end.
End Sqf.

(** ** Other monomial orders (60-72, 91-97, 144-158): convert to lex, compute, convert back *)
Section Wrap.
Context (vo2 : vorder) (gt2 : mono -> mono -> bool).
Variable msrt : list (var * Z) -> list (var * Z).
Variable srt : forall C : Type, Mono.poly C -> Mono.poly C.
Variable mcomp qcomp : poly Z -> poly Z -> outcome (option (poly Z)).
Variable rcomp : poly Z -> poly Z -> outcome (option (poly Z * poly Z)).
Variable zcomp : forall p (Hp : modulus p), Mono.poly (zpc p) -> Mono.poly (zpc p) -> outcome (option (Mono.poly (zpc p) * Mono.poly (zpc p))).
Variable ps : nat -> pmod.
Variable rnd : path -> nat -> Z.
(** the sorts of the target order *)
Variable msrt2 : list (var * Z) -> list (var * Z).
Variable srt2 : poly Z -> poly Z.

Definition to_lex (F : poly Z) : poly Z := p_convert Zc vless (lex_gt vless) msrt (srt Z) (fun c : Z => c) F.
Definition from_lex (F : poly Z) : poly Z := p_convert Zc vo2 gt2 msrt2 srt2 (fun c : Z => c) F.
(** 57-67 [polynomial_GCD] and 68-72 [gcd] *)
Definition gcd_any (fuel : nat) (pa : path) (F G : poly Z) : outcome (poly Z) :=
  P <- poly_gcd vless msrt srt mcomp qcomp rcomp zcomp ps rnd fuel pa (to_lex F) (to_lex G) ;; Ok (from_lex P).
(** 91-97 *)
Definition is_squarefree_any (fuel : nat) (pa : path) (F : poly Z) : outcome bool :=
  is_squarefree vless msrt srt mcomp qcomp rcomp zcomp ps rnd fuel pa (to_lex F).
(** 144-158 *)
Definition squarefreefactorize_any (fuel : nat) (pa : path) (F : poly Z) : outcome (list (poly Z * nat)) :=
  l <- squarefreefactorize vless msrt srt mcomp qcomp rcomp zcomp ps rnd fuel pa (to_lex F) ;;
  Ok (map (fun t => (from_lex (fst t), snd t)) l).
End Wrap.
