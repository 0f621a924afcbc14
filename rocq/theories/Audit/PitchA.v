(** Axioms used by the property theorems of Properties/Pitch.v (generated by tools/gen.py) *)
From Verif Require Import Properties.Pitch.

Definition audited :=
  (@C108_smooth,
   @C108_tone,
   @C108_recorded_sine,
   @C108_tones_are_smooth,
   @C109_speed_is_rounded,
   @C109_one_call_to_steady,
   @C109_heard_at_rounded_speed,
   @C109_cd_pitch_refuted).
Print Assumptions audited.
