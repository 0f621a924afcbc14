(** Axioms used by the property theorems of Properties/Track.v (generated by tools/gen.py) *)
From Verif Require Import Properties.Track.

Definition audited :=
  (@C93_bandpass_tracks,
   @C93_lowpass_tracks,
   @C93_highpass_tracks,
   @C94_lowpass_tone,
   @C94_highpass_tone,
   @C94_bandpass_tone).
Print Assumptions audited.
