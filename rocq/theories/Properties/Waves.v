(** * C97: the triangle and the sawtooth are what they are called *)

From Coq Require Import ZArith List Bool Reals Lra Lia.
From Flocq Require Import Core.Core IEEE754.BinarySingleNaN.
From Verif Require Import Model.Floats Model.Generators Spec.Waves
  Proof.FloatFacts Proof.SampleFormatP Proof.WavesP.
Import ListNotations.
Local Open Scope R_scope.

(** ** C97 *)
Theorem C97_triangle_accuracy : forall (n : nat) (f : f64), is_finite f = true -> Rabs (B2R f) <= 24000 ->
  let y := nth_out tri_process n (tri_new f) in
  is_finite y = true /\
  Rabs (B2R y - triangle_wave (B2R f * INR n / 48000)) <= bpow radix2 (-25) + INR n * bpow radix2 (-50).
Proof. exact triangle_accuracy. Qed.
(** away from the jump, by as much as the phase may have drifted *)
Theorem C97_sawtooth_accuracy : forall (n : nat) (f : f64), is_finite f = true -> 0 <= B2R f <= 24000 ->
  let y := nth_out saw_process n (saw_new f) in let w := sawtooth_wave (B2R f * INR n / 48000) in
  is_finite y = true /\
  (Rabs w < 1 - INR n * bpow radix2 (-51) -> Rabs (B2R y - w) <= bpow radix2 (-25) + INR n * bpow radix2 (-51)).
Proof. exact sawtooth_accuracy. Qed.
(** relied on: setting the frequency that is already set changes nothing.  Every triangle has moments
    where it turns the slope around. *)
Theorem C97_set_same_frequency_refuted : forall f : f64, is_finite f = true -> bpow radix2 (-20) <= B2R f <= 24000 ->
  exists n, let s := nsteps tri_process n (tri_new f) in
    tri_irate (tri_set_frequency s f) = tri_rate f /\ B2R (tri_irate s) = - B2R (tri_rate f) /\ 0 < B2R (tri_rate f).
Proof. exact tri_reset_turns. Qed.

Definition shown {S} (x : res (list f32 * S)) : option (list SpecFloat.spec_float) :=
  match x with Ok (ys, _) => Some (map B2SF ys) | Panic => None end.
Definition part (m e : Z) : SpecFloat.spec_float := B2SF (lit m e : f32).
Example C97_ex : triangle_wave (6000 * INR 2 / 48000) = 1 /\ B2SF (nth_out tri_process 2 (tri_new (of_Z 6000))) = part 1 0
  /\ sawtooth_wave (6000 * INR 2 / 48000) = / 2 /\ B2SF (nth_out saw_process 2 (saw_new (of_Z 6000))) = part 1 (-1).
Proof.
  split; [|split; [vm_compute; reflexivity|split; [|vm_compute; reflexivity]]].
  - unfold triangle_wave. replace (2 * PI * (6000 * INR 2 / 48000)) with (PI / 2) by (simpl; field).
    rewrite asin_sin by (pose proof PI_RGT_0; lra). pose proof PI_RGT_0. field. lra.
  - unfold sawtooth_wave. assert (E : Zfloor (6000 * INR 2 / 48000 + / 2) = 0%Z) by (apply Zfloor_imp; simpl; lra).
    rewrite E. simpl. lra.
Qed.
Example C97_ex_reset : shown (tri_run [GNext; GNext; GNext; GNext; GNext] (tri_new (of_Z 6000)))
    = Some [part 0 0; part 1 (-1); part 1 0; part 1 (-1); part 0 0]
  /\ shown (tri_run [GNext; GNext; GNext; GFreq (of_Z 6000); GNext; GNext] (tri_new (of_Z 6000)))
    = Some [part 0 0; part 1 (-1); part 1 0; part 1 (-1); part 1 0].
Proof. vm_compute. split; reflexivity. Qed.
