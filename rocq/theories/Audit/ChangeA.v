(** Axioms used by the property theorems of Properties/Change.v (generated by tools/gen.py) *)
From Verif Require Import Properties.Change.

Definition audited :=
  (@C121_lowpass_retuned,
   @C121_highpass_retuned,
   @C121_bandpass_retuned,
   @C121_lowpass_retuned_tone,
   @C121_highpass_retuned_tone,
   @C121_bandpass_retuned_tone,
   @C121_alternating_corners_refuted).
Print Assumptions audited.
