(** * Model of the variable registry (variable.hh 20-188, variable.cc 9-13).

    Strings are Coq strings; a serial is a natural number.  [name_map] (unordered_map) is an association list with
    unique keys; a failing [assert] is [Throw] (it aborts the program).  Copies of [variable] values are plain
    serials; the model tracks only the three static containers. *)
From Coq Require Import String Ascii DecimalString DecimalNat.
From Verif Require Import Prelude.
Local Open Scope string_scope.

Record registry := Reg {
  r_vars : list string;            (* variables *)
  r_map : list (string * nat);     (* name_map *)
  r_free : list nat;               (* free_serial; back() is the head *)
}.

(** variable.cc 10-12 *)
Definition reg_init : registry := Reg [""] [("", 0)] [].

Fixpoint mfind (m : list (string * nat)) (k : string) : option nat :=
  match m with [] => None | (k', s) :: r => if String.eqb k' k then Some s else mfind r k end.
(** [name_map.erase(k)] *)
Definition merase (m : list (string * nat)) (k : string) : list (string * nat) :=
  filter (fun t => negb (String.eqb (fst t) k)) m.
(** [name_map[k]=s] *)
Definition mset (m : list (string * nat)) (k : string) (s : nat) : list (string * nat) := (k, s) :: merase m k.

(** std::to_string *)
Definition to_string (n : nat) : string := NilZero.string_of_uint (Nat.to_uint n).
Definition anon_name (n : nat) : string := "#var_" ++ to_string n.

(** variable.hh 103-121 [init_variable(name)] *)
Definition init_named (st : registry) (nm : string) : nat * registry :=
  match r_free st with
  | [] => let s := List.length (r_vars st) in
          (s, Reg (r_vars st ++ [nm])%list (mset (r_map st) nm s) [])
  | s :: fr => (s, Reg (lset (r_vars st) s nm) (mset (r_map st) nm s) fr)
  end.
(** variable.hh 122-142 [init_variable()] *)
Definition init_anon (st : registry) : nat * registry :=
  match r_free st with
  | [] => init_named st (anon_name (List.length (r_vars st)))
  | s :: _ => init_named st (anon_name s)
  end.
(** variable.hh 143-146: ['a'<=c<='z'] compares a bool with 'z' and is always true *)
Definition user_name_ok (nm : string) : bool := negb (String.eqb nm "").
(** variable.hh 147-156 [get_variable(name)] *)
Definition get_named (st : registry) (nm : string) : outcome (nat * registry) :=
  match mfind (r_map st) nm with
  | None => if user_name_ok nm then Ok (init_named st nm) else Throw
  | Some s => if Nat.ltb s (List.length (r_vars st)) then Ok (s, st) else Throw
  end.
(** variable.hh 157-162 [new_variable(name)] *)
Definition new_named (st : registry) (nm : string) : outcome (nat * registry) :=
  match mfind (r_map st) nm with
  | None => if user_name_ok nm then Ok (init_named st nm) else Throw
  | Some _ => Throw
  end.
(** variable.hh 164-172 [del_variable(serial)] *)
Definition del_serial (st : registry) (s : nat) : registry :=
  match nth_error (r_vars st) s with
  | Some nm => if String.eqb nm "" then st
               else Reg (lset (r_vars st) s "") (merase (r_map st) nm) (s :: r_free st)
  | None => st
  end.
(** variable.hh 173-180 [del_variable(name)] *)
Definition del_named (st : registry) (nm : string) : registry :=
  match mfind (r_map st) nm with Some s => del_serial st s | None => st end.
(** variable.hh 183-187 [get_variable(serial)] *)
Definition get_serial (st : registry) (s : nat) : outcome (nat * registry) :=
  match nth_error (r_vars st) s with
  | Some nm => if String.eqb nm "" then Throw else Ok (s, st)
  | None => Throw
  end.

(** Histories *)
Inductive rop :=
| OpGet (nm : string) | OpNew (nm : string) | OpAnon | OpDelSerial (s : nat) | OpDelName (nm : string) | OpGetSerial (s : nat).
Definition rstep (st : registry) (o : rop) : outcome (option nat * registry) :=
  match o with
  | OpGet nm => '(s, st') <- get_named st nm ;; Ok (Some s, st')
  | OpNew nm => '(s, st') <- new_named st nm ;; Ok (Some s, st')
  | OpAnon => let '(s, st') := init_anon st in Ok (Some s, st')
  | OpDelSerial s => Ok (None, del_serial st s)
  | OpDelName nm => Ok (None, del_named st nm)
  | OpGetSerial s => '(s', st') <- get_serial st s ;; Ok (Some s', st')
  end.
Fixpoint rrun (st : registry) (h : list rop) : outcome registry :=
  match h with
  | [] => Ok st
  | o :: h' => '(_, st') <- rstep st o ;; rrun st' h'
  end.

(** ** Specification-side vocabulary: the name a serial carries ([v.name()]); a serial is live if that name is
    not empty. *)
Definition name_of (st : registry) (s : nat) : string := nth s (r_vars st) "".
Definition live (st : registry) (s : nat) : Prop := name_of st s <> "".
