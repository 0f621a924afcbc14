(** Axioms used by the property theorems of Properties/Debug.v (generated by tools/gen.py) *)
From Verif Require Import Properties.Debug.

Definition audited :=
  (@C75_vec_reader,
   @C75_delivers_payload,
   @C76_f32_tolerance,
   @C76_f64_tolerance,
   @C76_nan_is_never_equal,
   @C76_symmetric,
   @C76_exact_difference,
   @C76_reflexive,
   @C77_bin2str_preserves_bytes,
   @C82_bin2str_line_width).
Print Assumptions audited.
