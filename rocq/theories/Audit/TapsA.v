(** Axioms used by the property theorems of Properties/Taps.v (generated by tools/gen.py) *)
From Verif Require Import Properties.Taps.

Definition audited :=
  (@C119_one_solution,
   @C119_tracks,
   @C119_convolution,
   @C119_tone,
   @C119_tone_floats,
   @C119_unit_feedback_refuted).
Print Assumptions audited.
