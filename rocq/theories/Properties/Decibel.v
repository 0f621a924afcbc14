(** * C95, C96: decibels and panning in the program's arithmetic

    [dB v] is 10^(v/20), [decibels g] is 20 log10 g, over the reals (Spec/Decibel.v). *)
From Coq Require Import ZArith List Bool Reals Lra Lia.
From Flocq Require Import Core.Core IEEE754.BinarySingleNaN.
From Verif Require Import Model.Floats Model.Utils Model.Stereo Spec.Libm Spec.Decibel Proof.FloatFacts Proof.FormatsP Proof.SampleFormatP Proof.LibmP Proof.DbP.
Import ListNotations.
Local Open Scope R_scope.

(** ** C95: the two conversions are accurate and inverse to each other, and normalize reaches the level asked for *)
Theorem C95_db_to_linear : forall (m : libm) (x : f64), pow10_accurate m -> is_finite x = true -> Rabs (B2R x) <= 2000 ->
  is_finite (db_to_linear m x) = true /\ Rabs (B2R (db_to_linear m x) - dB (B2R x)) <= dB (B2R x) * bpow radix2 (-39).
Proof. exact db_to_linear_ok. Qed.
Theorem C95_linear_to_db : forall (m : libm) (g : f64), log10_accurate m -> is_finite g = true -> 0 < B2R g ->
  is_finite (linear_to_db m g) = true /\ Rabs (B2R (linear_to_db m g) - decibels (B2R g)) <= Rabs (decibels (B2R g)) * bpow radix2 (-39) + bpow radix2 (-44).
Proof. exact linear_to_db_ok. Qed.
Theorem C95_db_round_trip : forall (m : libm) (x : f64), pow10_accurate m -> log10_accurate m -> is_finite x = true -> Rabs (B2R x) <= 2000 ->
  is_finite (linear_to_db m (db_to_linear m x)) = true /\
  Rabs (B2R (linear_to_db m (db_to_linear m x)) - B2R x) <= Rabs (B2R x) * bpow radix2 (-39) + bpow radix2 (-33).
Proof. exact db_round_trip. Qed.
Theorem C95_gain_round_trip : forall (m : libm) (g : f64), pow10_accurate m -> log10_accurate m -> is_finite g = true ->
  bpow radix2 (-190) <= B2R g <= bpow radix2 190 ->
  is_finite (db_to_linear m (linear_to_db m g)) = true /\ Rabs (B2R (db_to_linear m (linear_to_db m g)) - B2R g) <= B2R g * bpow radix2 (-30).
Proof. exact gain_round_trip. Qed.
Theorem C95_normalize_to_db : forall (m : libm) (db : f64) (t : list f32) (a b : f32), pow10_accurate m -> is_finite db = true -> -300 <= B2R db <= 300 ->
  (Z.of_nat (length t) <= 2 ^ 24)%Z -> (forall s, In s t -> is_finite s = true /\ Rabs (B2R s) <= bpow radix2 60) ->
  In a t -> In b t -> bpow radix2 (-59) <= Rabs (B2R a - B2R b) ->
  exists p : R, Rabs (p - dB (B2R db)) <= dB (B2R db) * bpow radix2 (-21) /\
    (forall o, In o (normalize m db t) -> is_finite o = true /\ Rabs (B2R o) <= p) /\ (exists o, In o (normalize m db t) /\ Rabs (B2R o) = p).
Proof. exact normalize_to_db. Qed.
(** the correctly rounded library meets both assumptions, and -6 dB is near one half *)
Example C95_ex : pow10_accurate ideal_libm /\ log10_accurate ideal_libm /\ is_finite (of_Z (-6) : f64) = true /\ Rabs (B2R (of_Z (-6) : f64)) <= 2000.
Proof.
  split; [exact ideal_pow10|]. split; [exact ideal_log10|]. destruct (of_Z64 (-6) ltac:(lia)) as [F ->]. split; [exact F|]. apply Rabs_le. lra.
Qed.

(** ** C96: each channel is the sample attenuated by [pan_left], [pan_right] decibels: -3 falling to -120 on the left half for the left channel, then 0 falling to -3;
    0 falling to -3 for the right channel, then -3 falling to -120 *)
Theorem C96_pan_law : forall (m : libm) (s : f32) (g : f64), pow10_accurate m -> is_finite s = true -> Rabs (B2R s) <= bpow radix2 100 ->
  is_finite g = true -> -1 <= B2R g <= 1 ->
  let o := pan64 m s g in is_finite (left o) = true /\ is_finite (right o) = true /\
  Rabs (B2R (left o) - dB (pan_left (B2R g)) * B2R s) <= bpow radix2 (-22) * Rabs (dB (pan_left (B2R g)) * B2R s) + bpow radix2 (-149) /\
  Rabs (B2R (right o) - dB (pan_right (B2R g)) * B2R s) <= bpow radix2 (-22) * Rabs (dB (pan_right (B2R g)) * B2R s) + bpow radix2 (-149).
Proof. exact pan_law. Qed.
(** relied on: moving a positive sample to the right makes the right channel louder.  Within either half it makes both channels quieter *)
Theorem C96_right_is_louder_refuted : forall (m : libm) (s : f32) (g g' : f64), pow10_accurate m -> is_finite s = true ->
  bpow radix2 (-100) <= B2R s <= bpow radix2 100 -> is_finite g = true -> is_finite g' = true ->
  -1 <= B2R g -> B2R g + / 1024 <= B2R g' -> B2R g' <= 1 -> B2R g' < 0 \/ 0 < B2R g ->
  B2R (left (pan64 m s g')) < B2R (left (pan64 m s g)) /\ B2R (right (pan64 m s g')) < B2R (right (pan64 m s g)).
Proof. exact pan_right_is_quieter. Qed.
(** halfway right: 1.5 dB down on the left, 61.5 dB down on the right *)
Example C96_ex : pan_left (/ 2) = -15 / 10 /\ pan_right (/ 2) = -615 / 10 /\ is_finite (lit 1 (-1) : f64) = true /\ B2R (lit 1 (-1) : f64) = / 2.
Proof.
  unfold pan_left, pan_right. destruct (Rle_dec (/ 2) 0); [lra|]. destruct (Rle_dec 0 (/ 2)); [|lra]. split; [lra|]. split; [lra|].
  destruct (B2R_of_SF (lit 1 (-1) : f64) false 4503599627370496 (-53)) as [F ->]; [vm_compute; reflexivity|]. split; [exact F|].
  change (bpow radix2 (-53)) with (/ 9007199254740992). simpl cond_Zopp. lra.
Qed.
