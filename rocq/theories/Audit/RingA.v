(** Axioms used by the property theorems of Properties/Ring.v (generated by tools/gen.py) *)
From Verif Require Import Properties.Ring.

Definition audited :=
  (@C120_one_signal,
   @C120_flow,
   @C120_tracks,
   @C120_tone,
   @C120_resonance,
   @C120_gain_one_piles_up).
Print Assumptions audited.
