(** Axioms used by the property theorems of Properties/Decibel.v (generated by tools/gen.py) *)
From Verif Require Import Properties.Decibel.

Definition audited :=
  (@C95_db_to_linear,
   @C95_linear_to_db,
   @C95_db_round_trip,
   @C95_gain_round_trip,
   @C95_normalize_to_db,
   @C96_pan_law,
   @C96_right_is_louder_refuted).
Print Assumptions audited.
