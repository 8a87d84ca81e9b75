(** * The inventory satisfies the laws. *)
From Verif Require Import Prelude Coef Spec OrderSpec Mono MonoProofs MonoStruct MonoStructProofs Library.
Lemma lib_vorder_ok vo : lib_vorder vo -> vorder_ok vo.
Proof. intros [|vs|v]; [apply vless_ok|apply vcustom_ok|apply vuniv_ok]. Qed.
Theorem lib_monos_ok M (S : monos M) ok sm : lib_monos S ok sm -> monos_ok S ok sm.
Proof.
  intros [vo H|vo H|]; [apply lexS_ok, lib_vorder_ok, H|apply grlexS_ok, lib_vorder_ok, H|apply uniS_ok].
Qed.
