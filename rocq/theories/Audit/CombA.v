(** Axioms used by the property theorems of Properties/Comb.v (generated by tools/gen.py) *)
From Verif Require Import Properties.Comb.

Definition audited :=
  (@C100_echo_is_comb,
   @C100_echo_dies,
   @C100_echo_dies_refuted).
Print Assumptions audited.
