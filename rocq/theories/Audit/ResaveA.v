(** Axioms used by the property theorems of Properties/Resave.v (generated by tools/gen.py) *)
From Verif Require Import Properties.Resave.

Definition audited :=
  (@C126_same_file,
   @C126_deeper_and_back,
   @C126_part_of_a_frame,
   @C126_rate_refuted,
   @C126_clip_lowest_refuted,
   @C126_deeper_lowest_refuted).
Print Assumptions audited.
