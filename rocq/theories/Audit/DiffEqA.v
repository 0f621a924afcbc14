(** Axioms used by the property theorems of Properties/DiffEq.v (generated by tools/gen.py) *)
From Verif Require Import Properties.DiffEq.

Definition audited :=
  (@C86_lowpass_difference_equation,
   @C86_highpass_difference_equation,
   @C86_bandpass_difference_equation,
   @C86_bandpass_blocks_period_two,
   @C87_bandpass_f32_bounded,
   @C87_bandpass_asked_corners_bounded).
Print Assumptions audited.
