(** Axioms used by the property theorems of Properties/Channel.v (generated by tools/gen.py) *)
From Verif Require Import Properties.Channel.

Definition audited :=
  (@C71_sounds_report_their_id,
   @C71_registered,
   @C71_issued,
   @C71_issued_once,
   @C72_output_always_empty,
   @C73_remove_keeps_ids,
   @C73_id_survives_history,
   @C74_add_panics_iff_shared,
   @C74_handles_accounted,
   @C74_add_twice_panics,
   @C72_process_fills_output_refuted,
   @C73_removed_has_no_id_refuted).
Print Assumptions audited.
