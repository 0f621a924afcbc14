(** Axioms used by the property theorems of Properties/FiltersF32.v (generated by tools/gen.py) *)
From Verif Require Import Properties.FiltersF32.

Definition audited :=
  (@C83_lowpass_f32_bounded,
   @C83_highpass_f32_bounded,
   @C84_lowpass_f32_stable_refuted,
   @C84_highpass_f32_stable_refuted,
   @C85_highpass_constant_residue,
   @C85_highpass_removes_dc_refuted).
Print Assumptions audited.
