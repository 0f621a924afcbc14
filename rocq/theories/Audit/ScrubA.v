(** Axioms used by the property theorems of Properties/Scrub.v (generated by tools/gen.py) *)
From Verif Require Import Properties.Scrub.

Definition audited :=
  (@C125_any_rate,
   @C125_own_rate,
   @C125_whole_speed,
   @C125_half_speed,
   @C125_tenths_refuted).
Print Assumptions audited.
