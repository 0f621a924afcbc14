(** Axioms used by the property theorems of Properties/Playback.v (generated by tools/gen.py) *)
From Verif Require Import Properties.Playback.

Definition audited :=
  (@C98_playback,
   @C98_slow_playback_ends_refuted,
   @C98_neighbours_refuted).
Print Assumptions audited.
