(** * C126: opening a WAV file and saving it again *)

From Coq Require Import ZArith List Bool Lia.
From Flocq Require Import IEEE754.BinarySingleNaN.
From Verif Require Import Model.Floats Model.SampleFormat Model.Wav Spec.Resave Proof.ResaveP.
Import ListNotations.

(** ** C126 *)
(** a file of whole frames, from whatever program, saved at its own depth without clipping: the same integers in the same places *)
Theorem C126_same_file : forall (a : Z) (h : header) (d : list Z) (n : nat), a = 8%Z \/ a = 16%Z \/ a = 24%Z -> (0 < channel_count h <= 65535)%Z ->
  Z.of_nat (length d) = (Z.of_nat n * channel_count h)%Z -> Forall (in_depth a) d ->
  resave h (of_depth a d) a false = Ok (Some (mkHeader 1 (channel_count h) 48000 a, of_depth a d)).
Proof. exact same_file. Qed.
(** saved at a greater depth and back at its own, clipped or not on either way: the same again, and the file in between holds
    nothing that does not fit; unless there is the most negative integer in it *)
Theorem C126_deeper_and_back : forall (a b : Z) (c1 c2 : bool) (h : header) (d : list Z) (n : nat), (a <= b)%Z ->
  a = 8%Z \/ a = 16%Z \/ a = 24%Z -> b = 8%Z \/ b = 16%Z \/ b = 24%Z -> (0 < channel_count h <= 65535)%Z ->
  Z.of_nat (length d) = (Z.of_nat n * channel_count h)%Z -> Forall (fun z => in_depth a z /\ above_lowest a z) d ->
  exists h' d', resave h (of_depth a d) b c1 = Ok (Some (h', of_depth b d')) /\ channel_count h' = channel_count h /\ Forall (in_depth b) d' /\
    resave h' (of_depth b d') a c2 = Ok (Some (mkHeader 1 (channel_count h) 48000 a, of_depth a d)).
Proof. exact deeper_and_back. Qed.
(** a file that ends within a frame can be read but not saved *)
Theorem C126_part_of_a_frame : forall (a b : Z) (clip : bool) (h : header) (d : list Z), (0 < channel_count h)%Z ->
  (Z.of_nat (length d) mod channel_count h <> 0)%Z -> resave h (of_depth a d) b clip = Ok None.
Proof. exact resave_odd. Qed.
(** relied on: a file keeps its sample rate.  Any other than 48000 is lost, so it plays at another pitch *)
Theorem C126_rate_refuted : forall (a : Z) (h : header) (d : list Z) (n : nat), a = 8%Z \/ a = 16%Z \/ a = 24%Z -> (0 < channel_count h <= 65535)%Z ->
  Z.of_nat (length d) = (Z.of_nat n * channel_count h)%Z -> Forall (in_depth a) d -> sampling_rate h <> 48000%Z ->
  exists h', resave h (of_depth a d) a false = Ok (Some (h', of_depth a d)) /\ sampling_rate h' <> sampling_rate h.
Proof. exact rate_lost. Qed.
(** relied on: clipping changes nothing in a file that was a file before, and a deeper file has room for it.  Not for -32768 *)
Theorem C126_clip_lowest_refuted : forall (h : header) (n : nat), channel_count h = 1%Z ->
  resave h (Sixteen (repeat (-32768)%Z n)) 16 true = Ok (Some (mkHeader 1 1 48000 16, Sixteen (repeat (-32767)%Z n))).
Proof. exact clip_lowest. Qed.
Theorem C126_deeper_lowest_refuted : forall h : header, channel_count h = 1%Z ->
  exists z, resave h (Sixteen [-32768]%Z) 24 false = Ok (Some (mkHeader 1 1 48000 24, TwentyFour [z])) /\ ~ in_depth 24 z.
Proof. exact deep_lowest. Qed.
(** a stereo file of 8 bits saved with 24 bits, and back *)
Example C126_ex : let h := mkHeader 1 2 44100 8 in let d := [0; 255; 128; 127; 1; 200]%Z in
  Forall (fun z => in_depth 8 z /\ above_lowest 8 z) d /\
  resave h (Eight d) 24 false = Ok (Some (mkHeader 1 2 48000 24, TwentyFour [-8388607; 8323071; 0; -65536; -8323071; 4718592]%Z)) /\
  resave (mkHeader 1 2 48000 24) (TwentyFour [-8388607; 8323071; 0; -65536; -8323071; 4718592]%Z) 8 true = Ok (Some (mkHeader 1 2 48000 8, Eight d)).
Proof.
  cbv zeta. split; [|split; vm_compute; reflexivity].
  apply Forall_forall. intros z Hz. split.
  - left. split; [reflexivity|]. cbn in Hz. intuition lia.
  - split; intros [X _]; discriminate.
Qed.
