(** * C24-C29, C78, C79: MonoResampler and MonoWav *)

From Coq Require Import ZArith List Bool Reals Lra Lia.
From Flocq Require Import Core.Core IEEE754.BinarySingleNaN.
From Verif Require Import Model.Floats Model.Mono Model.SampleFormat Model.Wav Model.Resampler
  Proof.FloatFacts Proof.SampleFormatP Proof.WavP Proof.ResamplerP Proof.ResamplerP2 Proof.ResamplerP3 Proof.MonoWavP.
Import ListNotations.
Local Open Scope R_scope.

(** [within e data]: every sample is finite with magnitude at most 2^e; [sample_at data i]: the i-th sample. *)

(** the output list of a run, as sign/mantissa/exponent data *)
Definition outs (x : res (list f32 * resampler)) : option (list SpecFloat.spec_float) :=
  match x with Ok (ys, _) => Some (map B2SF ys) | Panic => None end.
Definition sf (zs : list Z) : option (list SpecFloat.spec_float) := Some (map (fun z => B2SF (of_Z z : f32)) zs).
Definition track (zs : list Z) : list Mono := map (fun z => mkMono (of_Z z)) zs.

(** C24 *)
Theorem C24_unity_identity : forall (e : Z) (data : list Mono) (n : nat),
  (e <= 126)%Z -> within e data -> (Z.of_nat (length data) <= 2 ^ 24)%Z ->
  exists ys r', rcalls n (resampler_new data (of_Z 48000) 0 0) = Ok (ys, r') /\ length ys = n /\
    forall i, (i < n)%nat ->
      ((i < length data)%nat -> is_finite (nth i ys f0) = true /\ B2R (nth i ys f0) = B2R (sample_at data i)) /\
      ((length data <= i)%nat -> nth i ys f0 = f0).
Proof. exact unity_playback. Qed.

Example C24_ex : outs (rcalls 4 (resampler_new (track [3; -1]%Z) (of_Z 48000) 0 0)) = sf [3; -1; 0; 0]%Z.
Proof. vm_compute. reflexivity. Qed.

(** C25: the exact set of panicking states; [k] ranges over track lengths 2^k+1 *)
Theorem C25_panic_iff : forall r : resampler, r_le r = 0%Z -> (Z.of_nat (length (r_data r)) <= 2 ^ 24)%Z ->
  (resampler_process r = Panic <->
   exists k, (0 <= k <= 22)%Z /\ Z.of_nat (length (r_data r)) = (2 ^ k + 1)%Z /\
     is_finite (r_ind r) = true /\ B2R (r_ind r) = bpow radix2 k - bpow radix2 (k - 24)).
Proof. exact process_nl_panic_iff. Qed.

Theorem C25_never_panics : forall (ops : list rop) (data : list Mono) (rate : f64),
  (Z.of_nat (length data) <= 2 ^ 24)%Z ->
  (forall k, (0 <= k <= 22)%Z -> Z.of_nat (length data) <> (2 ^ k + 1)%Z) ->
  rrun ops (resampler_new data rate 0 0) <> Panic.
Proof. intros ops data rate H1 H2. apply nl_never_panics; [reflexivity|exact H1|exact H2]. Qed.

(** relied-on "never panics": refuted for every track of 2^k+1 samples *)
Theorem C25_panics_refuted : forall (data : list Mono) (k : Z), (0 <= k <= 22)%Z -> Z.of_nat (length data) = (2 ^ k + 1)%Z ->
  rrun [RSpeed (lit (2 ^ 24 - 1) (k - 24)); RProcess; RProcess] (resampler_new data (of_Z 48000) 0 0) = Panic.
Proof. exact nl_panics. Qed.

Theorem C25_long_refuted : forall data : list Mono, Z.of_nat (length data) = (2 ^ 24 + 4)%Z ->
  rrun [RSpeed (of_Z (2 ^ 24 + 2)); RProcess; RProcess] (resampler_new data (of_Z 48000) 0 0) = Panic.
Proof. exact long_panics. Qed.

Example C25_ex : rrun [RSpeed (lit 16777215 (-24)); RProcess; RProcess]
    (resampler_new [mkMono f0; mkMono f0] (of_Z 48000) 0 0) = Panic
  /\ (forall k, (0 <= k <= 22)%Z -> 4%Z <> (2 ^ k + 1)%Z).
Proof.
  split; [vm_compute; reflexivity|]. intros k Hk E. destruct (Z.eq_dec k 0) as [->|]; [discriminate|].
  assert (2 ^ k = 2 * 2 ^ (k - 1))%Z by (rewrite <- Z.pow_succ_r by lia; f_equal; lia). lia.
Qed.

(** C26 *)
Theorem C26_peak : forall (e : Z) (r : resampler) (y : f32) (r' : resampler),
  (-125 <= e <= 126)%Z -> within e (r_data r) ->
  is_finite (r_ind r) = true -> 0 <= B2R (r_ind r) -> resampler_process r = Ok (y, r') ->
  is_finite y = true /\ Rabs (B2R y) <= bpow radix2 e.
Proof. exact process_bound. Qed.

(** over any history with non-negative speeds, looping or not *)
Theorem C26_peak_history : forall (e : Z) (ops : list rop) (data : list Mono) (rate : f64) (ls le : Z) (ys : list f32) (r' : resampler),
  (-125 <= e <= 126)%Z -> within e data -> (Z.of_nat (length data) <= u64_max)%Z ->
  (0 <= ls <= u64_max)%Z -> (0 <= le <= u64_max)%Z ->
  is_finite (r_inc (resampler_new data rate ls le)) = true -> 0 <= B2R (r_inc (resampler_new data rate ls le)) ->
  good_speeds ops ->
  rrun ops (resampler_new data rate ls le) = Ok (ys, r') ->
  Forall (fun y => is_finite y = true /\ Rabs (B2R y) <= bpow radix2 e) ys.
Proof.
  intros e ops data rate ls le ys r' He W Hlen Hls Hle F P G.
  apply (run_bound e ops He G (resampler_new data rate ls le) ys r'); try assumption;
    unfold resampler_new in *; destruct (Z.ltb_spec le ls); cbn [r_data r_ls r_le r_ind r_speed r_inc] in *;
    try assumption; try lia; try reflexivity.
  1, 2: right; split; [reflexivity|simpl; lra].
  all: assert (E : to32 (of_Z 1) = of_Z 1) by (apply B2SF_inj; vm_compute; reflexivity); rewrite E;
    destruct one32 as [_ ->]; lra.
Qed.

Example C26_ex : outs (rrun [RProcess; RProcess; RSpeed (of_Z 2); RProcess; RProcess]
    (resampler_new (track [1; -1; 1]%Z) (of_Z 24000) 0 0)) = sf [1; 0; -1; 1]%Z.
Proof. vm_compute. reflexivity. Qed.

(** C27 *)
Theorem C27_loop_panic_iff : forall r : resampler, let len := Z.of_nat (length (r_data r)) in
  (0 <= r_ls r < r_le r)%Z -> (r_le r <= len)%Z -> (len <= 2 ^ 23)%Z ->
  is_finite (r_ind r) = true -> 0 <= B2R (r_ind r) < IZR (r_le r) ->
  (resampler_process r = Panic <->
   exists k, (0 <= k <= 22)%Z /\ len = (2 ^ k + 1)%Z /\
     is_finite (r_ind r) = true /\ B2R (r_ind r) = bpow radix2 k - bpow radix2 (k - 24)).
Proof. exact process_loop_panic_iff. Qed.

Theorem C27_loop_invariant : forall (ops : list rop) (data : list Mono) (rate : f64) (ls le : Z),
  let len := Z.of_nat (length data) in let inc := to32 (fmul rate INV_SAMPLE_RATE) in
  (0 <= ls < le)%Z -> (le <= len)%Z -> (len <= 2 ^ 23)%Z ->
  (forall k, (0 <= k <= 22)%Z -> len <> (2 ^ k + 1)%Z) ->
  good_step inc ls le (of_Z 1) -> good_steps inc ls le ops ->
  exists ys r', rrun ops (resampler_new data rate ls le) = Ok (ys, r') /\
    is_finite (r_ind r') = true /\ 0 <= B2R (r_ind r') < IZR le.
Proof.
  intros ops data rate ls le len inc H1 H2 H3 Hk G GS.
  assert (E : resampler_new data rate ls le = mkRes data f0 inc (of_Z 1) ls le).
  { unfold resampler_new. destruct (Z.ltb_spec le ls); [lia|]. reflexivity. }
  rewrite E. apply (loop_run ops (mkRes data f0 inc (of_Z 1) ls le)); try assumption; try reflexivity.
  cbn [r_ind r_le]. change (B2R (f0 : f32)) with 0. split; [lra|]. apply (IZR_lt 0). lia.
Qed.

(** unity-rate loops play the loop body for ever *)
Theorem C27_unity_loop : forall (e : Z) (data : list Mono) (ls le : Z) (n : nat), (e <= 126)%Z -> within e data ->
  (0 <= ls < le)%Z -> (le <= Z.of_nat (length data))%Z -> (le <= 2 ^ 24)%Z ->
  exists ys r', rcalls n (resampler_new data (of_Z 48000) ls le) = Ok (ys, r') /\ length ys = n /\
    forall i, (i < n)%nat -> is_finite (nth i ys f0) = true /\
      B2R (nth i ys f0) = B2R (sample_at data (Z.to_nat
        (if (Z.of_nat i <? le)%Z then Z.of_nat i else (ls + (Z.of_nat i - le) mod (le - ls))%Z))).
Proof. exact loop_playback. Qed.

(** a loop past the end of the track, or an empty one: call len+1 panics, none before *)
Theorem C27_bad_loop : forall (e : Z) (data : list Mono) (ls le : Z) (n : nat), (e <= 126)%Z -> within e data ->
  (Z.of_nat (length data) < 2 ^ 24)%Z -> (0 <= ls <= le)%Z -> (le <= 2 ^ 24)%Z -> (0 < le)%Z ->
  (Z.of_nat (length data) < le \/ ls = le)%Z ->
  (rcalls n (resampler_new data (of_Z 48000) ls le) = Panic <-> (length data < n)%nat).
Proof. exact bad_loop. Qed.

Example C27_ex : outs (rcalls 6 (resampler_new (track [5; 6; 7; 8]%Z) (of_Z 48000) 1 3)) = sf [5; 6; 7; 6; 7; 6]%Z
  /\ outs (rcalls 3 (resampler_new (track [5; 6]%Z) (of_Z 48000) 0 3)) = None.
Proof. split; vm_compute; reflexivity. Qed.

(** C28 *)
Theorem C28_zero_end_loops_refuted : forall (e : Z) (data : list Mono) (ls : Z) (n : nat), (e <= 126)%Z -> within e data ->
  (0 < ls)%Z -> (ls <= Z.of_nat (length data))%Z -> (ls <= 2 ^ 24)%Z ->
  exists ys r', rcalls n (resampler_new data (of_Z 48000) ls 0) = Ok (ys, r') /\ length ys = n /\
    forall i, (i < n)%nat -> is_finite (nth i ys f0) = true /\
      B2R (nth i ys f0) = B2R (sample_at data (Z.to_nat (Z.of_nat i mod ls))).
Proof.
  intros e data ls n He W H1 H2 H3.
  assert (E : resampler_new data (of_Z 48000) ls 0 = resampler_new data (of_Z 48000) 0 ls).
  { unfold resampler_new. destruct (Z.ltb_spec 0 ls); [|lia]. destruct (Z.ltb_spec ls 0); [lia|]. reflexivity. }
  rewrite E. destruct (loop_playback e data 0 ls n He W ltac:(lia) H2 H3) as (ys & r' & A & B & C).
  exists ys, r'. split; [exact A|]. split; [exact B|]. intros i Hi. rewrite <- (loop_pos_0 ls i H1). exact (C i Hi).
Qed.

Theorem C28_swapped_bounds : forall (data : list Mono) (rate : f64) (a b : Z),
  resampler_new data rate a b = resampler_new data rate b a.
Proof.
  intros data rate a b. unfold resampler_new.
  destruct (Z.ltb_spec b a); destruct (Z.ltb_spec a b); try reflexivity; try lia.
  assert (a = b) by lia. subst. reflexivity.
Qed.

Example C28_ex : outs (rcalls 5 (resampler_new (track [5; 6; 7]%Z) (of_Z 48000) 2 0)) = sf [5; 6; 5; 6; 5]%Z.
Proof. vm_compute. reflexivity. Qed.

(** C29 *)
Theorem C29_silence_is_permanent : forall (ops : list rop) (r : resampler), r_le r = 0%Z ->
  (Z.of_nat (length (r_data r)) <= to_usize (r_ind r))%Z ->
  exists n r', rrun ops r = Ok (repeat f0 n, r') /\ r_ind r' = r_ind r.
Proof. exact silent_forever. Qed.

Theorem C29_ends : forall (e : Z) (data : list Mono), (e <= 126)%Z -> within e data -> (Z.of_nat (length data) <= 2 ^ 24)%Z ->
  exists ys r', rcalls (length data) (resampler_new data (of_Z 48000) 0 0) = Ok (ys, r') /\
    forall ops, exists n r'', rrun ops r' = Ok (repeat f0 n, r'').
Proof.
  intros e data He W Hl. rewrite U_new by lia.
  destruct (U_run e data 0 0 Z.of_nat He W ltac:(lia) ltac:(lia) (length data) 0) as (ys & E & _ & _).
  { intros i Hi. split; [lia|]. split; [lia|]. unfold unity_next. cbn [Z.eqb negb]. rewrite andb_false_r. lia. }
  exists ys. eexists. split; [exact E|]. intro ops.
  destruct (silent_forever ops (U data 0 0 (Z.of_nat (0 + length data)))) as (n & r'' & A & _).
  - reflexivity.
  - cbn [plus U r_data r_ind]. rewrite to_usize_Z by lia. lia.
  - exists n, r''. exact A.
Qed.

Theorem C29_long_track_sticks_refuted : forall (e : Z) (data : list Mono) (n : nat), (e <= 126)%Z -> within e data ->
  (2 ^ 24 < Z.of_nat (length data))%Z ->
  exists ys r', rcalls n (resampler_new data (of_Z 48000) 0 0) = Ok (ys, r') /\ length ys = n /\
    forall i, (i < n)%nat -> is_finite (nth i ys f0) = true /\
      B2R (nth i ys f0) = B2R (sample_at data (Z.to_nat (Z.min (Z.of_nat i) (2 ^ 24)))).
Proof. exact long_playback. Qed.

Example C29_ex : outs (rrun [RProcess; RProcess; RSpeed (of_Z (-7)); RProcess] (resampler_new (track [5; 6]%Z) (of_Z 48000) 0 0)) = sf [5; 6; 0]%Z
  /\ within 3 (track [5; 5]%Z).
Proof.
  split; [vm_compute; reflexivity|]. unfold within, track. apply Forall_forall. intros m Hm.
  assert (E : m = mkMono (of_Z 5)) by (destruct Hm as [<-|[<-|[]]]; reflexivity). subst m. cbn [mono].
  destruct (of_Z32 5 ltac:(lia)) as [A B]. rewrite B.
  split; [exact A|]. change (bpow radix2 3) with 8. rewrite Rabs_pos_eq; lra.
Qed.

(** C78: what a loop interpolates towards at its seam *)
Theorem C78_seam_at_track_end : forall r : resampler, let len := Z.of_nat (length (r_data r)) in
  r_le r = len -> (1 <= r_ls r < len)%Z -> (len <= 2 ^ 24)%Z ->
  is_finite (r_ind r) = true -> IZR (len - 1) <= B2R (r_ind r) < IZR len ->
  resampler_process r = Ok (mix (ffract (r_ind r)) (sample_at (r_data r) (Z.to_nat (len - 1)))
    (sample_at (r_data r) (Z.to_nat (r_ls r - 1))), advance r).
Proof. exact seam_at_end. Qed.

Theorem C78_seam_inside_track : forall r : resampler, let len := Z.of_nat (length (r_data r)) in
  (0 <= r_ls r < r_le r)%Z -> (r_le r < len)%Z -> (len <= 2 ^ 23)%Z ->
  is_finite (r_ind r) = true -> IZR (r_le r - 1) <= B2R (r_ind r) -> B2R (fadd (r_ind r) (of_Z 1)) < IZR (r_le r + 1) ->
  B2R (r_ind r) < IZR (r_le r) ->
  resampler_process r = Ok (mix (ffract (r_ind r)) (sample_at (r_data r) (Z.to_nat (r_le r - 1)))
    (sample_at (r_data r) (Z.to_nat (r_le r))), advance r).
Proof. exact seam_inside. Qed.

(** relied-on: once inside the loop, output depends on loop samples only *)
Theorem C78_seam_refuted : exists (data : list Mono) (ls le : Z),
  (forall i, (ls <= Z.of_nat i < le)%Z -> sample_at data i = f0) /\
  outs (rcalls 8 (resampler_new data (of_Z 24000) ls le))
    = Some (map B2SF [of_Z 1; lit 1 (-1); f0; f0; f0; lit 1 (-1); f0 : f32; f0]).
Proof.
  exists (track [1; 0; 0]%Z), 1%Z, 3%Z. split; [|vm_compute; reflexivity].
  intros [|[|[|i]]] Hi; try lia; reflexivity.
Qed.

(** C79 *)
Theorem C79_write_then_play : forall (wr : header -> bit_depth -> bool) (t : list f32) (ts : list (list f32)) (bps : Z) (clip : bool) h bd (n : nat),
  (Z.of_nat (length (t :: ts)) <= 65535)%Z -> (Z.of_nat (length t) <= 2 ^ 24)%Z ->
  write_wav wr (t :: ts) bps clip = Ok (Some (h, bd)) ->
  exists r ys r', monowav_from_source (Some (h, bd)) = Ok r /\ rcalls n r = Ok (ys, r') /\ length ys = n /\
    forall i, (i < n)%nat ->
      ((i < length t)%nat -> is_finite (nth i ys f0) = true /\
         B2R (nth i ys f0) = B2R (decz_of bps (enc_of bps (nth i (clipped clip t) f0)))) /\
      ((length t <= i)%nat -> nth i ys f0 = f0).
Proof. exact wav_playback. Qed.

Theorem C79_no_channels_panics : forall (h : header) (bd : bit_depth), channel_count h = 0%Z -> monowav_from_source (Some (h, bd)) = Panic.
Proof. exact wav_source_panics. Qed.

Example C79_ex : exists h bd, write_wav (fun _ _ => true) [[f1; f0; f1]; [f0; f0; f0]] 16 false = Ok (Some (h, bd))
  /\ outs (do r <- monowav_from_source (Some (h, bd)); rcalls 4 r) = sf [1; 0; 1; 0]%Z.
Proof.
  exists (mkHeader 1 2 48000 16), (Sixteen [32767; 0; 0; 0; 32767; 0]%Z). split; vm_compute; reflexivity.
Qed.
