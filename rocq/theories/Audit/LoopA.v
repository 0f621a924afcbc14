(** Axioms used by the property theorems of Properties/Loop.v (generated by tools/gen.py) *)
From Verif Require Import Properties.Loop.

Definition audited :=
  (@C117_curve,
   @C117_tone,
   @C117_no_drift,
   @C117_endless_tone,
   @C117_loop_to_the_end_refuted).
Print Assumptions audited.
