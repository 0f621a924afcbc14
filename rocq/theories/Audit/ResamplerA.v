(** Axioms used by the property theorems of Properties/Resampler.v (generated by tools/gen.py) *)
From Verif Require Import Properties.Resampler.

Definition audited :=
  (@C24_unity_identity,
   @C25_panic_iff,
   @C25_never_panics,
   @C25_panics_refuted,
   @C25_long_refuted,
   @C26_peak,
   @C26_peak_history,
   @C27_loop_panic_iff,
   @C27_loop_invariant,
   @C27_unity_loop,
   @C27_bad_loop,
   @C28_zero_end_loops_refuted,
   @C28_swapped_bounds,
   @C29_silence_is_permanent,
   @C29_ends,
   @C29_long_track_sticks_refuted,
   @C78_seam_at_track_end,
   @C78_seam_inside_track,
   @C78_seam_refuted,
   @C79_write_then_play,
   @C79_no_channels_panics).
Print Assumptions audited.
