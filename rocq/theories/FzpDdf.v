(** * An irreducible factor of X^(p^d) - X has degree at most d (used for the distinct-degree factorization, C50). *)
From mathcomp Require Import all_ssreflect all_algebra all_field polyorder.
From Verif Require Import FzpMath.
Import GRing.Theory.
Set Implicit Arguments.
Unset Strict Implicit.
Local Open Scope ring_scope.

Section Irr.
Variable F : finFieldType.
Let p := #|F|.
Hypothesis charp : p \in [char F].
Lemma cardL (L : fieldExtType F) : #|FinFieldExtType L| = (#|F| ^ \dim {:L})%N.
Proof. exact: (etrans (esym (@card_vspacef F (FinFieldExtType L) (Vector.class L))) (card_vspace _)). Qed.
Lemma irr_fermat (q : {poly F}) d : irreducible_poly q -> (0 < d)%N -> q %| 'X^(p ^ d) - 'X -> ((size q).-1 <= d)%N.
Proof.
move=> irr d0 D. have [L dimL [z zroot zgen]] := irredp_FAdjoin irr.
have charL : p \in [char L] by rewrite char_lalg.
have p1 : (1 < p)%N by apply: prime_gt1; exact: (charf_prime charp).
have fix_z : z ^+ (p ^ d) = z.
  have /dvdpP[r Er] := D. have : (map_poly (in_alg L) ('X^(p ^ d) - 'X)).[z] = 0.
    by rewrite Er rmorphM hornerM (rootP zroot) mulr0.
  rewrite rmorphB /= map_polyXn map_polyX !hornerE hornerXn => /eqP. by rewrite subr_eq0 => /eqP.
have frob (r : {poly F}) w : (map_poly (in_alg L) r).[w] ^+ p = (map_poly (in_alg L) r).[w ^+ p].
  rewrite !horner_coef -(Frobenius_autE charL) rmorph_sum. apply: eq_bigr => i _.
  rewrite [LHS](Frobenius_autE charL) coef_map exprMn -rmorphX /= expf_card. congr (_ * _). by rewrite -!exprM mulnC.
have frobd (r : {poly F}) k w : (map_poly (in_alg L) r).[w] ^+ (p ^ k) = (map_poly (in_alg L) r).[w ^+ (p ^ k)].
  elim: k => [|k IH]; first by rewrite expn0 !expr1. by rewrite expnSr exprM IH frob -exprM.
have all_fix (y : FinFieldExtType L) : y ^+ (p ^ d) = y.
  have : (y : L) \in <<1; z>>%VS by rewrite zgen memvf.
  move=> /Fadjoin1_polyP[r ->]. by rewrite [LHS]frobd fix_z.
set P : {poly FinFieldExtType L} := 'X^(p ^ d) - 'X.
have SP : size P = (p ^ d).+1.
  rewrite /P size_addl; first by rewrite size_polyXn. rewrite size_opp size_polyX size_polyXn ltnS. apply: (@leq_trans (p ^ 1)); [by rewrite expn1|by rewrite leq_exp2l].
have := max_poly_roots (p := P) (rs := enum (FinFieldExtType L)). rewrite -size_poly_eq0 SP -cardE cardL dimL enum_uniq ltnS -/p => /(_ isT).
rewrite leq_exp2l //. apply => //. apply/allP => y _. by rewrite rootE !hornerE hornerXn all_fix subrr.
Qed.
End Irr.
