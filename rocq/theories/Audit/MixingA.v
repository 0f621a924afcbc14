(** Axioms used by the property theorems of Properties/Mixing.v (generated by tools/gen.py) *)
From Verif Require Import Properties.Mixing.

Definition audited :=
  (@C89_process_mixes,
   @C89_process_panics_if_shared,
   @C89_gain_is_last_set,
   @C90_clone_shares_sounds,
   @C90_neither_can_process,
   @C90_same_next_id).
Print Assumptions audited.
