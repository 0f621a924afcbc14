(** Axioms used by the property theorems of Properties/Note.v (generated by tools/gen.py) *)
From Verif Require Import Properties.Note.

Definition audited :=
  (@C118_held,
   @C118_released,
   @C118_shaped,
   @C118_sine_note).
Print Assumptions audited.
