(** Axioms used by the property theorems of Properties/Wav.v (generated by tools/gen.py) *)
From Verif Require Import Properties.Wav.

Definition audited :=
  (@C19_write_errors,
   @C19_writer_failure,
   @C19_no_data_refuted,
   @C20_round_trip,
   @C20_reencode,
   @C20_rewrite_stable,
   @C21_read_round_robin,
   @C21_read_lengths,
   @C21_read_zero_channels,
   @C22_clip_range,
   @C22_write_clip_fits,
   @C22_no_clip_fits_refuted,
   @C23_channel_count,
   @C23_wrap_panics).
Print Assumptions audited.
