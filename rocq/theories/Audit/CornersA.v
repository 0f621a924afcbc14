(** Axioms used by the property theorems of Properties/Corners.v (generated by tools/gen.py) *)
From Verif Require Import Properties.Corners.

Definition audited :=
  (@C88_setters,
   @C88_corners_f64,
   @C88_corners_round_trip).
Print Assumptions audited.
