(** Axioms used by the property theorems of Properties/Rack.v (generated by tools/gen.py) *)
From Verif Require Import Properties.Rack.

Definition audited :=
  (@C107_rack_any_history,
   @C107_rack,
   @C107_adding_is_cheap,
   @C107_chord,
   @C107_dry_wet_comb).
Print Assumptions audited.
