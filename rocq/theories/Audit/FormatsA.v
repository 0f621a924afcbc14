(** Axioms used by the property theorems of Properties/Formats.v (generated by tools/gen.py) *)
From Verif Require Import Properties.Formats.

Definition audited :=
  (@C08_mono_op_assign,
   @C08_mono_sub_adds,
   @C08_mono_sub_differs,
   @C08_mono_sub_refuted,
   @C08_new_is_silence,
   @C09_stereo_op_channels,
   @C09_stereo_mul_m_refuted,
   @C09_stereo_mul_m_close,
   @C09_new_is_silence,
   @C10_mono_lossless,
   @C10_stereo_doubles,
   @C10_stereo_lossless_refuted,
   @C11_try_from_errors,
   @C11_try_from_prefix,
   @C11_into_length,
   @C11_mono_vec_round_trip,
   @C11_stereo_vec_round_trip,
   @C11_try_from_is_constructor,
   @C12_pan_types_agree,
   @C12_pan_clamp_hi,
   @C12_pan_clamp_lo,
   @C12_mono_ignores_position,
   @C13_pan_dbs,
   @C13_pan_directions,
   @C13_pan_left_refuted).
Print Assumptions audited.
