(** * C123: the order in which a channel mixes its sounds *)

From Coq Require Import ZArith List Bool Reals Lra Lia Permutation.
From Flocq Require Import Core.Core IEEE754.BinarySingleNaN.
From Verif Require Import Model.Floats Model.SampleFormat Model.Mono Model.Stereo Model.Utils Model.Generators Model.Modifiers Model.Sounds Model.Channel
  Spec.Rack Spec.MixOrder Proof.FloatFacts Proof.GenericP Proof.SampleFormatP Proof.FormatsP Proof.RackP Proof.MixOrderP Proof.MixOrderP2.
Import ListNotations.
Local Open Scope R_scope.

Section MixOrder.
Variable S : Type. Variable s_process : S -> f32 -> res (f32 * S).
(** every registered sound is held by the channel only, and plays through the buffer without a panic *)
Local Notation runs_ok c h s0 ys s1 := (forall p, In p (map snd (ch_sounds _ c)) -> nth_error h p = Some (mkS S 1 (s0 p)) /\ run_res s_process (s0 p) (repeat f0 (length (ch_output _ c))) = Ok (ys p, s1 p)).
Local Notation mono_process := (ch_process Mono mono_new mono_from_sample mono_add_assign mono_mul_s_assign S s_process).
Local Notation stereo_process := (ch_process Stereo stereo_new stereo_from_sample stereo_add_assign stereo_mul_s_assign S s_process).

(** Whatever order the map yields the sounds in, the sounds end in the same states, and each sample of the
    buffer is the exact mix up to one rounding per sound and one for the gain. *)
Theorem C123_mono_order : forall (c : channel Mono) (h : sheap S) (s0 s1 : handle -> S) (ys : handle -> list f32) l,
  NoDup (map snd (ch_sounds _ c)) -> Permutation (ch_sounds _ c) l -> runs_ok c h s0 ys s1 ->
  exists o o' h', mono_process c h = Ok (mkChannel _ o (ch_sounds _ c) (ch_gain _ c) (ch_counter _ c), h') /\
    mono_process (reordered c l) h = Ok (mkChannel _ o' l (ch_gain _ c) (ch_counter _ c), h') /\ length o = length (ch_output _ c) /\ length o' = length (ch_output _ c) /\
    forall i, (i < length (ch_output _ c))%nat -> let b := mono (nth i (ch_output _ c) mono_new) in let vs := map (fun p => nth i (ys p) f0) (map snd (ch_sounds _ c)) in
      mix_room (ch_gain _ c) b vs -> near_mix (ch_gain _ c) b vs (mono (nth i o mono_new)) /\ near_mix (ch_gain _ c) b vs (mono (nth i o' mono_new)).
Proof. exact (mono_order S s_process). Qed.

(** The same on either side of a Stereo channel, which every sample enters times sqrt 1/2. *)
Theorem C123_stereo_order : forall (c : channel Stereo) (h : sheap S) (s0 s1 : handle -> S) (ys : handle -> list f32) l,
  NoDup (map snd (ch_sounds _ c)) -> Permutation (ch_sounds _ c) l -> runs_ok c h s0 ys s1 ->
  exists o o' h', stereo_process c h = Ok (mkChannel _ o (ch_sounds _ c) (ch_gain _ c) (ch_counter _ c), h') /\
    stereo_process (reordered c l) h = Ok (mkChannel _ o' l (ch_gain _ c) (ch_counter _ c), h') /\ length o = length (ch_output _ c) /\ length o' = length (ch_output _ c) /\
    forall i, (i < length (ch_output _ c))%nat -> let vs := map (fun p => fmul (nth i (ys p) f0) sqrt_half) (map snd (ch_sounds _ c)) in
      (let b := left (nth i (ch_output _ c) stereo_new) in
       mix_room (ch_gain _ c) b vs -> near_mix (ch_gain _ c) b vs (left (nth i o stereo_new)) /\ near_mix (ch_gain _ c) b vs (left (nth i o' stereo_new))) /\
      (let b := right (nth i (ch_output _ c) stereo_new) in
       mix_room (ch_gain _ c) b vs -> near_mix (ch_gain _ c) b vs (right (nth i o stereo_new)) /\ near_mix (ch_gain _ c) b vs (right (nth i o' stereo_new))).
Proof. exact (stereo_order S s_process). Qed.

(** Two sounds into a cleared buffer: the same bits in either order, also for infinities and NaN. *)
Theorem C123_mono_two_sounds : forall (c : channel Mono) (h : sheap S) (s0 s1 : handle -> S) (ys : handle -> list f32) x y n,
  ch_sounds _ c = [x; y] -> snd x <> snd y -> ch_output _ c = repeat mono_new n -> runs_ok c h s0 ys s1 ->
  exists o h', mono_process c h = Ok (mkChannel _ o [x; y] (ch_gain _ c) (ch_counter _ c), h') /\ mono_process (reordered c [y; x]) h = Ok (mkChannel _ o [y; x] (ch_gain _ c) (ch_counter _ c), h').
Proof. exact (mono_two S s_process). Qed.
Theorem C123_stereo_two_sounds : forall (c : channel Stereo) (h : sheap S) (s0 s1 : handle -> S) (ys : handle -> list f32) x y n,
  ch_sounds _ c = [x; y] -> snd x <> snd y -> ch_output _ c = repeat stereo_new n -> runs_ok c h s0 ys s1 ->
  exists o h', stereo_process c h = Ok (mkChannel _ o [x; y] (ch_gain _ c) (ch_counter _ c), h') /\ stereo_process (reordered c [y; x]) h = Ok (mkChannel _ o [y; x] (ch_gain _ c) (ch_counter _ c), h').
Proof. exact (stereo_two S s_process). Qed.

(** Any number of sounds whose samples are whole multiples of one power of two, together below 2^24 of
    them: the same bits in any order. *)
Theorem C123_on_a_grid : forall (c : channel Mono) (h : sheap S) (s0 s1 : handle -> S) (ys : handle -> list f32) l (e : Z) (zb : nat -> Z) (z : nat -> handle -> Z),
  NoDup (map snd (ch_sounds _ c)) -> Permutation (ch_sounds _ c) l -> runs_ok c h s0 ys s1 -> (-149 <= e <= 103)%Z ->
  (forall i, (i < length (ch_output _ c))%nat -> let b := mono (nth i (ch_output _ c) mono_new) in
     is_finite b = true /\ b <> B754_zero true /\ B2R b = IZR (zb i) * bpow radix2 e /\
     (forall p, In p (map snd (ch_sounds _ c)) -> let y := nth i (ys p) f0 in is_finite y = true /\ B2R y = IZR (z i p) * bpow radix2 e) /\
     (Z.abs (zb i) + fold_right (fun m a => Z.abs m + a) 0 (map (z i) (map snd (ch_sounds _ c))) < 2 ^ 24)%Z) ->
  exists o h', mono_process c h = Ok (mkChannel _ o (ch_sounds _ c) (ch_gain _ c) (ch_counter _ c), h') /\ mono_process (reordered c l) h = Ok (mkChannel _ o l (ch_gain _ c) (ch_counter _ c), h').
Proof. exact (mono_grid S s_process). Qed.
(** So for up to 131071 sounds of 8-bit samples. *)
Theorem C123_8_bit_sounds : forall (c : channel Mono) (h : sheap S) (s0 s1 : handle -> S) (ys : handle -> list f32) l n,
  NoDup (map snd (ch_sounds _ c)) -> Permutation (ch_sounds _ c) l -> runs_ok c h s0 ys s1 -> ch_output _ c = repeat mono_new n -> (Z.of_nat (length (ch_sounds _ c)) < 131072)%Z ->
  (forall i p, (i < n)%nat -> In p (map snd (ch_sounds _ c)) -> exists v, (0 <= v <= 255)%Z /\ nth i (ys p) f0 = sample_from_u8 v) ->
  exists o h', mono_process c h = Ok (mkChannel _ o (ch_sounds _ c) (ch_gain _ c) (ch_counter _ c), h') /\ mono_process (reordered c l) h = Ok (mkChannel _ o l (ch_gain _ c) (ch_counter _ c), h').
Proof. exact (mono_u8 S s_process). Qed.
End MixOrder.

(** In general the bits do depend on the order, already for three sounds: 1 in one order, 1 + 2^-23 in another. *)
Theorem C123_same_bits_refuted : exists (c : channel Mono) (l : list (Z * handle)) (h : sheap f32) c1 c2 h1 h2,
  NoDup (map snd (ch_sounds _ c)) /\ Permutation (ch_sounds _ c) l /\ ch_output _ c = [mono_new] /\
  constant_process c h = Ok (c1, h1) /\ constant_process (reordered c l) h = Ok (c2, h2) /\ ch_output _ c1 <> ch_output _ c2.
Proof. exact bits_differ. Qed.

(** the hypotheses of [C123_mono_order] hold for these three sounds *)
Example C123_ex : NoDup (map snd (ch_sounds _ three_channel)) /\ Permutation (ch_sounds _ three_channel) three' /\
  (forall p, In p (map snd (ch_sounds _ three_channel)) -> exists s ys s1, nth_error big_and_tiny p = Some (mkS f32 1 s) /\ run_res constant_sound s (repeat f0 1) = Ok (ys, s1)) /\
  mix_room f1 f0 [f1; tiny; tiny] /\ mix_err f1 f0 [f1; tiny; tiny] <= 5 * bpow radix2 (-24).
Proof. exact three_ok. Qed.
(** the two outputs *)
Example C123_ex_bits : 
  match constant_process three_channel big_and_tiny, constant_process (reordered three_channel three') big_and_tiny with
  | Ok (c1, _), Ok (c2, _) => map (fun m => B2SF (mono m)) (ch_output _ c1) = [SpecFloat.S754_finite false 8388608 (-23)] /\ map (fun m => B2SF (mono m)) (ch_output _ c2) = [SpecFloat.S754_finite false 8388609 (-23)]
  | _, _ => False end.
Proof. vm_compute. split; reflexivity. Qed.
