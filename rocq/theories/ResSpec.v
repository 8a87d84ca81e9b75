(** * Specification: determinants by expansion along the first column, Sylvester matrix.

    Independent of the CLPoly model. *)
From Verif Require Import Prelude Coef Spec SpecOps.

Section ResSpec.
Context {C : Type} (K : coefs C).
Local Notation R := (rpoly C).

(** sum over the rows r_i of (-1)^i * a(r_i) * phi(all the other rows) *)
Fixpoint expand {A} (a : A -> R) (phi : list A -> R) (rows : list A) : R :=
  match rows with
  | [] => r0
  | r :: rs => rsub K (rmul K (a r) (phi rs)) (expand a (fun l => phi (r :: l)) rs)
  end.

(** The determinant of the matrix whose entry in row [r] and column [c] is [c r]. *)
Fixpoint det_by {A} (cs : list (A -> R)) (rows : list A) : R :=
  match cs with
  | [] => match rows with [] => r1 K | _ => r0 end
  | c :: cs' => expand c (det_by cs') rows
  end.

(** A square matrix as the list of its rows; entry in column [k]. *)
Definition entry_at (k : nat) (r : list R) : R := nth k r r0.
Definition determinant (M : list (list R)) : R := det_by (map entry_at (seq 0 (length M))) M.

(** v^(n-1)*P, ..., v*P, P *)
Fixpoint shifts (v : var) (n : nat) (P : R) : list R :=
  match n with O => [] | S n' => rmul K (rmono K [(v, N.of_nat n')]) P :: shifts v n' P end.

(** The coefficients of [P] at v^(n-1), ..., v^0. *)
Definition coeff_row (v : var) (n : nat) (P : R) : list R :=
  map (fun k => rcoeff K v (N.of_nat k) P) (rev (seq 0 n)).

(** The Sylvester matrix of [F] and [G], of degrees [m] and [l] in [v]. *)
Definition sylvester (v : var) (m l : nat) (F G : R) : list (list R) :=
  map (coeff_row v (m + l)) (shifts v l F ++ shifts v m G).
End ResSpec.
