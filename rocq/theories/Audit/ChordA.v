(** Axioms used by the property theorems of Properties/Chord.v (generated by tools/gen.py) *)
From Verif Require Import Properties.Chord.

Definition audited :=
  (@C122_chord,
   @C122_harmonics,
   @C122_waveform,
   @C122_no_even_harmonics,
   @C122_square_sound,
   @C122_triangle_sound).
Print Assumptions audited.
