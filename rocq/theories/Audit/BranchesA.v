(** Axioms used by the property theorems of Properties/Branches.v (generated by tools/gen.py) *)
From Verif Require Import Properties.Branches.

Definition audited :=
  (@C114_order,
   @C114_no_delay,
   @C114_branches,
   @C114_two_short_branches_refuted,
   @C115_branches_of_modifiers,
   @C115_dry_wet_comb).
Print Assumptions audited.
