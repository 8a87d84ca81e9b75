(** * The monomial types and orders the library instantiates (specification-side inventory). *)
From Verif Require Import Prelude Coef Spec OrderSpec Mono MonoStruct.

(** Variable orders: less, custom_var_order(v), univariate_order(v) (monomial_order.hh 14-67). *)
Inductive lib_vorder : vorder -> Prop :=
| lv_less : lib_vorder vless
| lv_custom vs : lib_vorder (vcustom (vmap_of vs))
| lv_univ v : lib_vorder (vuniv v).

(** [lib_monos S ok sm]: [S] is a monomial type with its order, [ok] its well-formed values, [sm] the
    mathematical monomial a value denotes. *)
Inductive lib_monos : forall M : Type, monos M -> (M -> Prop) -> (M -> smono) -> Prop :=
| lm_lex vo : lib_vorder vo -> lib_monos mono (lexS vo) (mok vo) sm
| lm_grlex vo : lib_vorder vo -> lib_monos mono (grlexS vo) (mok vo) sm
| lm_uni : lib_monos Z uniS uok usm.
Arguments lib_monos {M}.
