(** * C111: linear modifiers convolve with their impulse response *)

From Coq Require Import ZArith List Bool Reals Lra Lia Permutation.
From Flocq Require Import Core.Core IEEE754.BinarySingleNaN.
From Verif Require Import Model.Floats Model.Utils Model.Generators Model.Modifiers Model.Filters Model.Sounds Model.Parts
  Spec.Libm Spec.Response Spec.Track Spec.SoundSpec Spec.Parts Spec.Chain Spec.Convolve
  Proof.FloatFacts Proof.FormatsP Proof.LibmP Proof.SoundsP Proof.SoundsP2 Proof.SoundsP3 Proof.ChainP4 Proof.ConvolveP Proof.ConvolveP2 Proof.ConvolveP3 Properties.Chain.
Import ListNotations.
Local Open Scope R_scope.

(** ** C111 *)
(** any signal through a chain of modifiers: the convolution with the chain's impulse response, to within the chain's rounding errors *)
Theorem C111_convolution : forall (m : libm) (ps : list lpart), cos_accurate m -> pow_int_accurate m -> tan_accurate m -> (forall p, In p ps -> l_ok m p) ->
  forall (x : nat -> R) (eps X : R) (xs : list f32), 0 <= eps -> bpow radix2 (-100) <= X -> chain_amp m ps X <= bpow radix2 90 -> near_signal x eps X xs ->
  exists ys, pipeline (b_prime kit kit_prime) (b_process kit (kit_process m)) (map (chain_block m) ps) xs = Ok ys /\ length ys = length xs /\
    near_signal (conv (chain_h m ps) x) (chain_err m ps eps X) (chain_amp m ps X) ys.
Proof. exact chain_convolves. Qed.
(** the same in a SimpleSound that is fed the signal *)
Theorem C111_simple_sound : forall (m : libm) (p : lpart) (ps : list lpart) (gi go : f64) (g : handle) (calls : list madd) (h : heap kit) (xs : list f32) (X : R),
  cos_accurate m -> pow_int_accurate m -> tan_accurate m -> (forall q, In q (p :: ps) -> l_ok m q) ->
  bpow radix2 (-100) <= X -> chain_amp m (p :: ps) X <= bpow radix2 90 ->
  NoDup (g :: added calls) -> map (get_mut kit h) (g :: added calls) = map Some (map (chain_block m) (p :: ps)) ->
  let ins := map (fun x => fmul x (to32 gi)) xs in (forall x, In x ins -> is_finite x = true /\ Rabs (B2R x) <= X) ->
  exists ys, outputs (run_res (ss_process kit kit_prime (kit_process m) (fold_left madd_step calls (ss_new gi go g))) h xs) = Ok (map (fun y => fmul y (to32 go)) ys) /\
    length ys = length xs /\ forall i y, nth_error ys i = Some y -> is_finite y = true /\
      Rabs (B2R y - conv (chain_h m (p :: ps)) (fun k => B2R (nth k ins f0)) i) <= chain_err m (p :: ps) 0 X.
Proof. exact sound_convolves. Qed.
(** a mix of two signals comes out as the mix of what comes out of each *)
Theorem C111_superposition : forall (m : libm) (ps : list lpart), cos_accurate m -> pow_int_accurate m -> tan_accurate m -> (forall p, In p ps -> l_ok m p) ->
  forall (a b eps X : R) (xs ys zs : list f32), 0 <= eps -> bpow radix2 (-100) <= X -> chain_amp m ps X <= bpow radix2 90 ->
  (forall x, In x (xs ++ ys ++ zs) -> is_finite x = true /\ Rabs (B2R x) <= X) -> length xs = length ys -> length ys = length zs ->
  (forall i x y z, nth_error xs i = Some x -> nth_error ys i = Some y -> nth_error zs i = Some z -> Rabs (B2R z - (a * B2R x + b * B2R y)) <= eps) ->
  let thru := pipeline (b_prime kit kit_prime) (b_process kit (kit_process m)) (map (chain_block m) ps) in
  exists us vs ws, thru xs = Ok us /\ thru ys = Ok vs /\ thru zs = Ok ws /\
    forall i u v w, nth_error us i = Some u -> nth_error vs i = Some v -> nth_error ws i = Some w -> is_finite w = true /\
      Rabs (B2R w - (a * B2R u + b * B2R v)) <= chain_err m ps eps X + (Rabs a + Rabs b) * chain_err m ps 0 X.
Proof. exact chain_superposes. Qed.
(** the order of the modifiers matters to rounding errors only *)
Theorem C111_order : forall (m : libm) (ps qs : list lpart), cos_accurate m -> pow_int_accurate m -> tan_accurate m -> Permutation ps qs -> (forall p, In p ps -> l_ok m p) ->
  forall (X : R) (xs : list f32), bpow radix2 (-100) <= X -> chain_amp m ps X <= bpow radix2 90 -> chain_amp m qs X <= bpow radix2 90 ->
  (forall x, In x xs -> is_finite x = true /\ Rabs (B2R x) <= X) ->
  exists us vs, pipeline (b_prime kit kit_prime) (b_process kit (kit_process m)) (map (chain_block m) ps) xs = Ok us /\
    pipeline (b_prime kit kit_prime) (b_process kit (kit_process m)) (map (chain_block m) qs) xs = Ok vs /\ length us = length xs /\ length vs = length xs /\
    forall i u v, nth_error us i = Some u -> nth_error vs i = Some v -> Rabs (B2R u - B2R v) <= chain_err m ps 0 X + chain_err m qs 0 X.
Proof. exact chain_reorders. Qed.
(** a fresh chain fed [k] samples of silence and then any samples at all (infinities and NaNs included) plays [k] samples of silence
    and then what it would have played at once, bit for bit except for the sign of zeros *)
Theorem C111_time_invariant : forall (m : libm) (ps : list lpart) (k : nat) (xs us : list f32), cos_accurate m -> pow_int_accurate m -> tan_accurate m -> (forall p, In p ps -> l_ok m p) ->
  pipeline (b_prime kit kit_prime) (b_process kit (kit_process m)) (map (chain_block m) ps) xs = Ok us ->
  exists vs, pipeline (b_prime kit kit_prime) (b_process kit (kit_process m)) (map (chain_block m) ps) (repeat f0 k ++ xs) = Ok vs /\
    Forall2 same_sample vs (repeat f0 k ++ us).
Proof. exact chain_waits. Qed.
(** the frequency response of C105 is the Fourier series of the impulse response *)
Theorem C111_fourier : forall (m : libm) (ps : list lpart) (om : R), (forall p, In p ps -> l_ok m p) ->
  settles (fun n => fst (fourier (chain_h m ps) om n)) (fun _ => fst (chain_w m ps om (cre 1))) /\
  settles (fun n => snd (fourier (chain_h m ps) om n)) (fun _ => snd (chain_w m ps om (cre 1))).
Proof. exact chain_fourier. Qed.
(** the impulse response is absolutely summable: no input of amplitude 1 comes out beyond the product of the gains *)
Theorem C111_absolutely_summable : forall (m : libm) (ps : list lpart) (n : nat), (forall p, In p ps -> l_ok m p) ->
  sum_f_R0 (fun k => Rabs (chain_h m ps k)) n <= fold_right (fun p a => l_gain m p * a) 1 ps.
Proof. exact chain_abs_sum. Qed.

(** half gain and an echo of half gain after 6 samples: a half at 0, a quarter at 6, an eighth at 12, nothing at 7; the chain of C105 is in range *)
Example C111_ex : let ps := [LGain (lit 1 (-1)); LEcho (mkDur 0 125000) (lit 1 (-1))] in forall m : libm,
  chain_h m ps 0 = / 2 /\ chain_h m ps 6 = / 4 /\ chain_h m ps 12 = / 8 /\ chain_h m ps 7 = 0 /\ (forall p, In p demo_chain -> l_ok ideal_libm p).
Proof.
  intros ps m. assert (G : to32 (lit 1 (-1) : f64) = lit 1 (-1)) by (apply B2SF_inj; vm_compute; reflexivity).
  assert (D : length (e_delay (echo_new (mkDur 0 125000) (lit 1 (-1)))) = 6%nat) by (vm_compute; reflexivity).
  assert (E : forall n, chain_h m ps n = / 2 * echo_h 6 (/ 2) n).
  { intro n. unfold ps. cbn [chain_h l_h]. rewrite D, G, half32, conv_comm, conv_gain, impulse_conv. reflexivity. }
  rewrite !E. unfold echo_h. cbn [Nat.modulo Nat.divmod Nat.div fst snd Nat.sub Nat.eqb pow].
  repeat split; try lra. exact (proj1 (proj2 C105_ex)).
Qed.
