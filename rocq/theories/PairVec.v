(** * Model of the sorted association vectors of basic.hh ([pair_vec_*]).

    [std::vector<std::pair<T1,T2>>] is [list (A * B)]; [gt] is the comparator [comp] (descending
    order), [eqA] is [operator==] on [T1], [K] the arithmetic of [T2].  The output-aliasing branches
    ([&v==&v1]) recompute into a temporary and are therefore the same function of the arguments. *)
From Verif Require Import Prelude Coef.

Section PairVec.
Context {A B : Type} (gt : A -> A -> bool) (eqA : A -> A -> bool) (K : coefs B).

(** basic.hh 133-164 [pair_vec_negate]. *)
Definition pv_negate (v : list (A * B)) : list (A * B) :=
  map (fun t => (fst t, copp K (snd t))) v.

(** basic.hh 165-221 [pair_vec_add]: the merge loop followed by the two tail loops (the shortcuts
    for an empty operand return the other operand, which is what the loops do). *)
Fixpoint pv_add (v1 : list (A * B)) : list (A * B) -> list (A * B) :=
  match v1 with
  | [] => fun v2 => v2
  | t1 :: r1 =>
      fix go (v2 : list (A * B)) : list (A * B) :=
        match v2 with
        | [] => v1
        | t2 :: r2 =>
            if gt (fst t2) (fst t1) then t2 :: go r2
            else if eqA (fst t2) (fst t1) then
              let tmp := cadd K (snd t2) (snd t1) in
              if is0 K tmp then pv_add r1 r2 else (fst t1, tmp) :: pv_add r1 r2
            else t1 :: pv_add r1 v2
        end
  end.

(** basic.hh 243-306 [pair_vec_sub]. *)
Fixpoint pv_sub (v1 : list (A * B)) : list (A * B) -> list (A * B) :=
  match v1 with
  | [] => fun v2 => pv_negate v2
  | t1 :: r1 =>
      fix go (v2 : list (A * B)) : list (A * B) :=
        match v2 with
        | [] => v1
        | t2 :: r2 =>
            if gt (fst t2) (fst t1) then (fst t2, copp K (snd t2)) :: go r2
            else if eqA (fst t2) (fst t1) then
              let tmp := csub K (snd t1) (snd t2) in
              if is0 K tmp then pv_sub r1 r2 else (fst t1, tmp) :: pv_sub r1 r2
            else t1 :: pv_sub r1 v2
        end
  end.

(** basic.hh 94-125 [pair_vec_normalization].  [std::sort] is a parameter: any function returning a
    sorted permutation (it is not stable, so nothing more is assumed). *)
Variable srt : list (A * B) -> list (A * B).

(** [std::is_sorted]: no adjacent pair with comp(next, previous). *)
Fixpoint is_sorted (v : list (A * B)) : bool :=
  match v with
  | t1 :: ((t2 :: _) as r) => negb (gt (fst t2) (fst t1)) && is_sorted r
  | _ => true
  end.

(** the loop of lines 108-120; [t1] is the element [*t1] being accumulated. *)
Fixpoint norm_loop (t1 : A * B) (r : list (A * B)) : list (A * B) :=
  match r with
  | [] => [t1]
  | t2 :: r' =>
      if is0 K (snd t2) then norm_loop t1 r'
      else if eqA (fst t1) (fst t2) then norm_loop (fst t1, cadd K (snd t1) (snd t2)) r'
      else t1 :: norm_loop t2 r'
  end.

(** lines 97-100: skip leading zeros; all zero gives size 0. *)
Fixpoint norm_skip (v : list (A * B)) : list (A * B) :=
  match v with
  | [] => []
  | t :: r => if is0 K (snd t) then norm_skip r else norm_loop t r
  end.

Definition pv_normalization (v : list (A * B)) : list (A * B) :=
  norm_skip (if is_sorted v then v else srt v).

(** basic.hh 307-325 [pair_vec_comp]: lexicographic comparison; [gtB] is [operator>] on T2. *)
Variable gtB : B -> B -> bool.
Fixpoint pv_comp (v1 v2 : list (A * B)) : bool :=
  match v1, v2 with
  | [], _ => false
  | _ :: _, [] => true
  | t1 :: r1, t2 :: r2 =>
      if negb (eqA (fst t1) (fst t2)) then gt (fst t1) (fst t2)
      else if negb (ceqb K (snd t1) (snd t2)) then gtB (snd t1) (snd t2)
      else pv_comp r1 r2
  end.

(** basic.hh 326-341 [pair_vec_equal_to]. *)
Fixpoint pv_equal_to (v1 v2 : list (A * B)) : bool :=
  match v1, v2 with
  | [], [] => true
  | t1 :: r1, t2 :: r2 =>
      eqA (fst t1) (fst t2) && ceqb K (snd t1) (snd t2) && pv_equal_to r1 r2
  | _, _ => false
  end.

(** basic.hh 76-92 [pair_vec_normal_check]: begins with [++v.begin()] and reads [*v.begin()], which is
    undefined on an empty vector. *)
Fixpoint normal_check_go (t1 : A * B) (r : list (A * B)) : bool :=
  match r with
  | [] => true
  | t2 :: r' => if negb (gt (fst t1) (fst t2)) || is0 K (snd t2) then false
                else normal_check_go t2 r'
  end.
Definition pv_normal_check (v : list (A * B)) : outcome bool :=
  match v with
  | [] => UB
  | t :: r => if is0 K (snd t) then Ok false else Ok (normal_check_go t r)
  end.
End PairVec.

(** An executable sort (used only to run the model; theorems hold for every sort). *)
Fixpoint insert_by {A B} (gt : A -> A -> bool) (t : A * B) (l : list (A * B)) : list (A * B) :=
  match l with
  | [] => [t]
  | u :: r => if gt (fst u) (fst t) then u :: insert_by gt t r else t :: l
  end.
Definition isort {A B} (gt : A -> A -> bool) (l : list (A * B)) : list (A * B) :=
  fold_right (insert_by gt) [] l.
