(** Axioms used by the property theorems of Properties/Flow.v (generated by tools/gen.py) *)
From Verif Require Import Properties.Flow.

Definition audited :=
  (@C106_dataflow,
   @C106_one_input_no_delay,
   @C106_parallel_branches,
   @C106_branches_reach_output_refuted).
Print Assumptions audited.
