(** * C30-C40, C80: generators *)

From Coq Require Import ZArith List Bool Reals Lra Lia.
From Flocq Require Import Core.Core IEEE754.BinarySingleNaN.
From Verif Require Import Model.Floats Model.Mono Model.Resampler Model.Generators Spec.Libm
  Proof.FloatFacts Proof.SampleFormatP Proof.FormatsP Proof.LibmP Proof.GeneratorsP Proof.GeneratorsP2 Proof.GeneratorsP3 Proof.GeneratorsP4.
Import ListNotations.
Local Open Scope R_scope.

(** [freqs P ops]: every set_frequency call of the history [ops] has an argument satisfying [P]. *)
Definition audible (f : f64) : Prop := is_finite f = true /\ 0 <= B2R f <= 24000.
Definition audible_abs (f : f64) : Prop := is_finite f = true /\ Rabs (B2R f) <= 24000.

Definition gouts {S} (x : res (list f32 * S)) : option (list SpecFloat.spec_float) :=
  match x with Ok (ys, _) => Some (map B2SF ys) | Panic => None end.
Definition gz (zs : list Z) : option (list SpecFloat.spec_float) := Some (map (fun z => B2SF (of_Z z : f32)) zs).
Definition frac (m e : Z) : SpecFloat.spec_float := B2SF (lit m e : f32).
Lemma audible_Z z : (0 <= z <= 24000)%Z -> audible (of_Z z).
Proof. intro H. destruct (of_Z64 z ltac:(lia)) as [A B]. split; [exact A|]. rewrite B. split; apply IZR_le; lia. Qed.

(** C30 *)
Theorem C30_saw_range : forall (f : f64) (ops : list gop), audible f -> freqs audible ops ->
  exists ys s, saw_run ops (saw_new f) = Ok (ys, s) /\ Forall (fun y => is_finite y = true /\ -1 <= B2R y <= 1) ys.
Proof.
  intros f ops [F H] Ho. destruct (total_run saw_set_frequency saw_process ops (saw_new f)) as (ys & s & E).
  exists ys, s. split; [exact E|]. apply (saw_hist ops Ho (saw_new f) ys s (saw_new_inv f F H) E).
Qed.

(** relied-on "for every frequency": refuted for every negative one down to -2^-20 Hz *)
Theorem C30_saw_negative_refuted : forall f : f64, is_finite f = true -> -24000 <= B2R f <= - bpow radix2 (-20) ->
  exists n, is_finite (nth_out saw_process n (saw_new f)) = true /\ B2R (nth_out saw_process n (saw_new f)) < -1.
Proof. exact saw_neg_escapes. Qed.

Example C30_ex : gouts (saw_run [GNext; GNext; GNext; GFreq (of_Z 6000); GNext; GNext; GNext] (saw_new (of_Z 12000)))
    = Some [frac 0 0; frac 1 (-1); frac (-1) 0; frac (-1) (-1); frac (-1) (-2); frac 0 0]
  /\ audible (of_Z 12000) /\ freqs audible [GNext; GFreq (of_Z 6000); GNext]
  /\ gouts (saw_run [GNext; GNext; GNext; GNext] (saw_new (of_Z (-24000)))) = gz [0; -1; -2; -3]%Z.
Proof.
  split; [vm_compute; reflexivity|]. split; [apply audible_Z; lia|]. split; [|vm_compute; reflexivity].
  unfold freqs. repeat apply Forall_cons; try apply Forall_nil; try exact I. apply audible_Z; lia.
Qed.

(** C31: rounding drift of the phase, and the resulting tuning error against 2*n*f/48000 (mod 2) *)
Theorem C31_saw_drift : forall (n : nat) (f : f64), audible f ->
  exists W : Z, (0 <= W <= Z.of_nat n)%Z /\
    Rabs (B2R (saw_inc (nsteps saw_process n (saw_new f))) - (INR n * B2R (saw_irate (saw_new f)) - 2 * IZR W)) <= INR n * bpow radix2 (-53).
Proof.
  intros n f [F H]. destruct (saw_drift n (saw_new f) (saw_new_inv f F H)) as (W & A & B). exists W. split; [exact A|].
  rewrite <- (Rplus_0_l (INR n * B2R (saw_irate (saw_new f)))). exact B.
Qed.
Theorem C31_saw_tuning : forall (n : nat) (f : f64), audible f ->
  exists W : Z, Rabs (B2R (saw_inc (nsteps saw_process n (saw_new f))) - (2 * INR n * B2R f / 48000 - 2 * IZR W)) <= INR n * bpow radix2 (-51).
Proof. intros n f [F H]. exact (saw_tuning n f F H). Qed.
Example C31_ex : B2SF (saw_inc (nsteps saw_process 7 (saw_new (of_Z 440)))) = SpecFloat.S754_finite false 4623695617433710 (-55)
  /\ audible (of_Z 440).
Proof. split; [vm_compute; reflexivity|apply audible_Z; lia]. Qed.

(** C32 *)
Theorem C32_tri_range : forall (f : f64) (ops : list gop), audible_abs f -> freqs audible_abs ops ->
  exists ys s, tri_run ops (tri_new f) = Ok (ys, s) /\ Forall (fun y => is_finite y = true /\ -1 <= B2R y <= 1) ys /\
    (let s' := snd (tri_process s) in
     Rabs (B2R (tri_inc s') - B2R (tri_inc s)) <= Rabs (B2R (tri_irate s)) + bpow radix2 (-52)).
Proof.
  intros f ops [F H] Ho. destruct (total_run tri_set_frequency tri_process ops (tri_new f)) as (ys & s & E).
  exists ys, s. split; [exact E|]. destruct (tri_hist ops Ho (tri_new f) ys s (tri_new_inv f F H) E) as [I A].
  split; [exact A|]. apply (tri_step s I).
Qed.
Example C32_ex : gouts (tri_run [GNext; GNext; GNext; GNext; GFreq (of_Z (-12000)); GNext; GNext] (tri_new (of_Z 6000)))
    = Some [frac 0 0; frac 1 (-1); frac 1 0; frac 1 (-1); frac 0 0; frac (-1) 0]
  /\ audible_abs (of_Z (-12000)).
Proof.
  split; [vm_compute; reflexivity|]. destruct (of_Z64 (-12000) ltac:(lia)) as [A B]. split; [exact A|]. rewrite B. apply Rabs_le. lra.
Qed.

(** C33: the slope (and with it the reported frequency) carries the parity of the reflections so far *)
Theorem C33_slope_parity : forall (n : nat) (f : f64), audible_abs f ->
  tri_irate (nsteps tri_process n (tri_new f)) =
    (if Nat.even (reflections n (tri_new f)) then tri_rate f else fneg (tri_rate f)).
Proof. intros n f [F H]. exact (tri_slope n (tri_new f) (tri_new_inv f F H)). Qed.
Theorem C33_get_frequency_refuted : forall f : f64, is_finite f = true -> bpow radix2 (-20) <= B2R f <= 24000 ->
  exists n, is_finite (tri_get_frequency (nsteps tri_process n (tri_new f))) = true /\
            B2R (tri_get_frequency (nsteps tri_process n (tri_new f))) < 0.
Proof. exact tri_get_wrong. Qed.
(** a clone taken while the slope is negative plays the inverted wave, for ever *)
Theorem C33_clone_inverted_refuted : forall (f : f64) (s : triangle), audible_abs f -> tri_irate s = fneg (tri_rate f) ->
  forall n, B2R (nth_out tri_process n (tri_clone s)) = - B2R (nth_out tri_process n (tri_new f)).
Proof. intros f s [F H] E n. exact (tri_clone_neg n f s F H E). Qed.
(** and every audible triangle has such a moment *)
Theorem C33_slope_turns : forall f : f64, is_finite f = true -> bpow radix2 (-20) <= B2R f <= 24000 ->
  exists n, tri_irate (nsteps tri_process n (tri_new f)) = fneg (tri_rate f).
Proof. exact tri_turns. Qed.
Example C33_ex : B2SF (tri_get_frequency (tri_new (of_Z 12000))) = B2SF (of_Z 12000 : f64)
  /\ B2SF (tri_get_frequency (nsteps tri_process 1 (tri_new (of_Z 12000)))) = B2SF (of_Z (-12000) : f64)
  /\ B2SF (nth_out tri_process 1 (tri_new (of_Z 12000))) = B2SF (of_Z 1 : f32)
  /\ B2SF (nth_out tri_process 1 (tri_clone (nsteps tri_process 1 (tri_new (of_Z 12000))))) = B2SF (of_Z (-1) : f32).
Proof. vm_compute. repeat split. Qed.

(** C34 *)
Theorem C34_square_values : forall (f : f64) (ops : list gop),
  exists ys s, sq_run ops (sq_new f) = Ok (ys, s) /\ Forall (fun y => y = of_Z 1 \/ y = of_Z (-1)) ys.
Proof.
  intros f ops. destruct (total_run sq_set_frequency sq_process ops (sq_new f)) as (ys & s & E).
  exists ys, s. split; [exact E|]. exact (sq_hist ops _ _ _ E).
Qed.
Theorem C34_square_period : forall (f : f64) (m : Z) (k : nat), (1 <= m <= 2 ^ 50)%Z ->
  is_finite (sq_half f) = true -> B2R (sq_half f) = IZR m ->
  nth_out sq_process k (sq_new f) = if (Z.of_nat k mod (2 * m) <? m)%Z then of_Z 1 else of_Z (-1).
Proof. intros f m k Hm F V. apply sq_nth; [exact Hm|]. repeat split; assumption. Qed.
(** in particular for every frequency 24000/m that is an integer number of Hz *)
Theorem C34_square_period_int : forall (m q : Z) (k : nat), (1 <= m)%Z -> (1 <= q)%Z -> (m * q = 24000)%Z ->
  nth_out sq_process k (sq_new (of_Z q)) = if (Z.of_nat k mod (2 * m) <? m)%Z then of_Z 1 else of_Z (-1).
Proof.
  intros m q k Hm Hq E. assert (B : (m <= 24000 /\ q <= 24000)%Z) by nia.
  destruct (of_Z64 q ltac:(lia)) as [F V].
  assert (Q1 : 1 <= IZR q <= 24000) by (split; apply IZR_le; lia).
  assert (PB : bpow radix2 (-100) <= 1 /\ 24000 <= bpow radix2 1000).
  { split; [change 1 with (bpow radix2 0); apply bpow_le; lia|]. apply Rle_trans with (bpow radix2 15); [change (bpow radix2 15) with 32768; lra|apply bpow_le; lia]. }
  destruct (sq_half_ok (of_Z q) F) as (A & V2 & _); [rewrite V; lra|].
  assert (E2 : 48000 / (2 * IZR q) = IZR m).
  { apply (f_equal IZR) in E. rewrite mult_IZR in E. apply Rmult_eq_reg_r with (2 * IZR q); [|lra].
    unfold Rdiv. rewrite Rmult_assoc, Rinv_l by lra. lra. }
  apply C34_square_period; [lia|exact A|]. rewrite V2, V, E2. apply (rnd_fmt (prec:=53) (emax:=1024)). apply fmt64_Z. lia.
Qed.
Example C34_ex : gouts (sq_run (repeat GNext 7) (sq_new (of_Z 8000))) = gz [1; 1; 1; -1; -1; -1; 1]%Z.
Proof. vm_compute. reflexivity. Qed.

(** C35: with integer phase K and new half period m, the output is stuck at +1 for every sample k
    with K - k(2m-1) >= 2m, i.e. about K/(2m-1) samples, instead of alternating *)
Theorem C35_catch_up_refuted : forall (s : square) (f : f64) (K m : Z) (k : nat),
  (0 <= K <= 2 ^ 52)%Z -> (1 <= m <= 2 ^ 50)%Z ->
  is_finite (sq_ind s) = true -> B2R (sq_ind s) = IZR K -> is_finite (sq_half f) = true -> B2R (sq_half f) = IZR m ->
  (2 * m <= K - Z.of_nat k * (2 * m - 1))%Z ->
  nth_out sq_process k (sq_set_frequency s f) = of_Z 1.
Proof. intros s f K m k HK Hm F1 V1 F2 V2 H. apply (sq_catch k _ K m HK Hm); [repeat split; assumption|exact H]. Qed.
(** from 48 kHz on, the output is constant after at most one sample, whatever happened before *)
Theorem C35_dc_refuted : forall (g f : f64) (ops : list gop) (ys : list f32) (s : square) (n : nat),
  is_finite g = true -> bpow radix2 (-100) <= B2R g <= bpow radix2 1000 ->
  freqs (fun f => is_finite f = true /\ bpow radix2 (-100) <= B2R f <= bpow radix2 1000) ops ->
  is_finite f = true -> 48000 <= B2R f <= bpow radix2 1000 -> sq_run ops (sq_new g) = Ok (ys, s) ->
  nth_out sq_process (S n) (sq_set_frequency s f) = of_Z 1.
Proof. intros g f ops ys s n. exact (sq_dc g ops f ys s n). Qed.
(** from 1 Hz to 24 kHz after half a period: 1 kHz worth of constant output *)
Example C35_ex :
  gouts (sq_run (repeat GNext 20 ++ [GFreq (of_Z 24000)] ++ repeat GNext 22) (sq_new (of_Z 1)))
    = gz (repeat 1 39 ++ [-1; 1; -1])%Z
  /\ gouts (sq_run (GNext :: GFreq (of_Z 48000) :: repeat GNext 5) (sq_new (of_Z 1000))) = gz [1; 1; 1; 1; 1; 1]%Z.
Proof. vm_compute. split; reflexivity. Qed.

(** C36 *)
Theorem C36_sine_range : forall (m : libm) (f : f64) (ops : list gop), sin_bounded m ->
  is_finite f = true -> 0 <= B2R f <= 48000 -> freqs (fun f => is_finite f = true /\ 0 <= B2R f <= 48000) ops ->
  exists ys s, sin_run m ops (sin_new f) = Ok (ys, s) /\ Forall (fun y => is_finite y = true /\ -1 <= B2R y <= 1) ys.
Proof.
  intros m f ops Sb F H Ho. destruct (sin_hist m ops Sb Ho (sin_new f) (sin_new_inv f F H)) as (ys & s & E & _ & A). eauto.
Qed.
(** relied-on "any frequency": panics for every f from 48010 Hz to 2^40 Hz within 9602 samples, at 96 kHz on the second *)
Theorem C36_high_panics_refuted : forall (m : libm) (f : f64) (n : nat), is_finite f = true -> 48010 <= B2R f <= bpow radix2 40 ->
  (9602 <= Z.of_nat n)%Z -> sin_run m (repeat GNext n) (sin_new f) = Panic.
Proof. exact sin_high. Qed.
Theorem C36_96000_panics : forall m : libm, sin_run m [GNext; GNext] (sin_new (of_Z 96000)) = Panic.
Proof. exact sin_96000. Qed.
Example C36_ex : sin_bounded ideal_libm /\ freqs (fun f => is_finite f = true /\ 0 <= B2R f <= 48000) [GNext; GFreq (of_Z 48000)].
Proof.
  split; [exact ideal_sin_bounded|]. unfold freqs. repeat apply Forall_cons; try apply Forall_nil; try exact I.
  destruct (of_Z64 48000 ltac:(lia)) as [A B]. split; [exact A|]. rewrite B. lra.
Qed.

(** C37 *)
Theorem C37_sine_negative_silent : forall (m : libm) (n : nat) (f : f64), sin_bounded m -> sin_zero m ->
  is_finite f = true -> - bpow radix2 900 <= B2R f < 0 ->
  exists ys s, sin_run m (repeat GNext n) (sin_new f) = Ok (ys, s) /\ length ys = n /\
    Forall (fun y => is_finite y = true /\ B2R y = 0) ys.
Proof. exact sin_negative. Qed.
(** while the mirrored sine is not silent: a quarter period at -12 kHz *)
Example C37_ex : sin (2 * PI * -12000 * 1 / 48000) = -1 /\ sin_zero ideal_libm /\ sin_bounded ideal_libm.
Proof.
  split; [|split; [exact ideal_sin_zero|exact ideal_sin_bounded]].
  replace (2 * PI * -12000 * 1 / 48000) with (- (PI / 2)) by field. rewrite Rtrigo1.sin_neg, sin_PI2. reflexivity.
Qed.

(** C38 *)
Theorem C38_noise_range : forall (u : f32) (k : Z), (0 <= k < 2 ^ 24)%Z -> is_finite u = true -> B2R u = IZR k * bpow radix2 (-24) ->
  is_finite (noise_process u) = true /\ B2R (noise_process u) = 2 * B2R u - 1 /\ -1 <= B2R (noise_process u) < 1.
Proof. exact noise_exact. Qed.
Example C38_ex : B2SF (noise_process (lit 3 (-2))) = B2SF (lit 1 (-1) : f32)
  /\ B2SF (noise_process (lit 16777215 (-24))) = B2SF (lit 8388607 (-23) : f32).
Proof. vm_compute. split; reflexivity. Qed.

(** C39 *)
Definition get_close (f g : f64) : Prop := is_finite g = true /\ Rabs (B2R g - B2R f) <= B2R f * bpow radix2 (-50).
Theorem C39_get_set : forall (f : f64) (a : sawtooth) (b : triangle) (c : square) (d : sine),
  is_finite f = true -> bpow radix2 (-20) <= B2R f <= bpow radix2 20 ->
  get_close f (saw_get_frequency (saw_set_frequency a f)) /\ get_close f (saw_get_frequency (saw_new f)) /\
  get_close f (tri_get_frequency (tri_set_frequency b f)) /\ get_close f (tri_get_frequency (tri_new f)) /\
  get_close f (sq_get_frequency (sq_set_frequency c f)) /\ get_close f (sq_get_frequency (sq_new f)) /\
  get_close f (sin_get_frequency (sin_set_frequency d f)) /\ get_close f (sin_get_frequency (sin_new f)).
Proof.
  intros f a b c d F H. repeat split.
  1, 2: apply (saw_get f F H a). 1, 2: apply (saw_get f F H (saw_new f)).
  1, 2: apply (tri_get f F H b). 1, 2: apply (tri_get f F H (tri_new f)).
  1, 2: apply (sq_get f F H c). 1, 2: apply (sq_get f F H (sq_new f)).
  1, 2: apply (sin_get f F H d). 1, 2: apply (sin_get f F H (sin_new f)).
Qed.
(** a frequency change does not move the phase: the next sample is the one it would have been (for the
    square, the phase itself is kept) *)
Theorem C39_phase_kept : forall (m : libm) (f : f64) (a : sawtooth) (b : triangle) (c : square) (d : sine),
  fst (saw_process (saw_set_frequency a f)) = fst (saw_process a) /\
  fst (tri_process (tri_set_frequency b f)) = fst (tri_process b) /\
  sq_ind (sq_set_frequency c f) = sq_ind c /\
  (forall y s, sin_process m d = Ok (y, s) -> exists s', sin_process m (sin_set_frequency d f) = Ok (y, s')).
Proof.
  intros m f a b c d. split; [reflexivity|]. split; [|split; [reflexivity|]].
  - unfold tri_process, tri_set_frequency. cbn [tri_inc tri_irate]. destruct (_ || _), (_ || _); reflexivity.
  - intros y s E. unfold sin_process, sin_set_frequency in *. cbn [sin_ind sin_inc] in *. cbv zeta in *.
    destruct (wavetable m _) as [u|]; [|discriminate]. destruct (wavetable m _) as [v|]; [|discriminate]. cbn [bind] in *.
    apply (f_equal (fun x => match x with Ok (t, _) => t | Panic => f0 end)) in E. cbv beta iota in E. subst y. eexists. reflexivity.
Qed.
Example C39_ex : B2SF (saw_get_frequency (saw_new (of_Z 440))) = B2SF (of_Z 440 : f64)
  /\ B2SF (sq_get_frequency (sq_new (of_Z 440))) = B2SF (of_Z 440 : f64).
Proof. vm_compute. split; reflexivity. Qed.

(** C40 *)
Theorem C40_clone_restarts : forall (m : libm) (ops : list gop) (f : f64),
  (forall ys s, saw_run ops (saw_new f) = Ok (ys, s) -> saw_clone s = saw_new (last_freq f ops)) /\
  (forall ys s, sq_run ops (sq_new f) = Ok (ys, s) -> sq_clone s = sq_new (last_freq f ops)) /\
  (forall ys s, sin_run m ops (sin_new f) = Ok (ys, s) -> sin_clone s = sin_new (last_freq f ops)) /\
  (forall ys s, tri_run ops (tri_new f) = Ok (ys, s) ->
     tri_clone s = tri_new (last_freq f ops) \/ tri_clone s = mkTri (fneg (tri_rate (last_freq f ops))) f0).
Proof.
  intros m ops f. split; [|split; [|split]]; intros ys s E.
  - exact (saw_clone_run ops f ys s E).
  - exact (sq_clone_run ops f ys s E).
  - exact (sin_clone_run m ops f ys s E).
  - exact (tri_clone_run ops f (tri_new f) ys s (or_introl eq_refl) E).
Qed.
Theorem C40_monowav_clone_restarts : forall (rate : f64) (t : list Mono) (ops : list rop) (ys : list f32) (r : resampler),
  rrun ops (monowav_from_track rate t) = Ok (ys, r) ->
  resampler_clone r = set_playback_speed (monowav_from_track rate t) (last_speed (of_Z 1) ops).
Proof. intros rate t ops ys r E. apply (resampler_clone_run ops _ (monowav_from_track rate t) _ ys r); [reflexivity|exact E]. Qed.
Example C40_ex : last_freq (of_Z 1) [GNext; GFreq (of_Z 2); GNext] = (of_Z 2 : f64)
  /\ exists ys s, saw_run [GNext; GFreq (of_Z 12000); GNext] (saw_new (of_Z 6000)) = Ok (ys, s).
Proof. split; [reflexivity|]. apply (total_run saw_set_frequency saw_process). Qed.

(** C80: the generated wave is a sine, within 2^-21 of the mathematical one wherever the phase is
    non-negative; the samples whose phase wrapped into [-1,0) are 0 instead, hence the 2^-9 *)
Theorem C80_sine_accuracy : forall (m : libm) (f : f64) (n : nat), sin_bounded m -> sin_zero m -> sin_accurate m ->
  is_finite f = true -> 0 <= B2R f <= 48000 ->
  exists ys s, sin_run m (repeat GNext n) (sin_new f) = Ok (ys, s) /\ length ys = n /\
    forall i, (i < n)%nat -> exists y, nth_error ys i = Some y /\ is_finite y = true /\
      Rabs (B2R y - sin (2 * PI * B2R f * INR i / 48000)) <= bpow radix2 (-9) + INR i * bpow radix2 (-48).
Proof. exact sin_accuracy. Qed.
Theorem C80_sine_sample : forall (m : libm) (s : sine), sin_bounded m -> sin_zero m -> sin_accurate m ->
  is_finite (sin_ind s) = true -> -1 <= B2R (sin_ind s) <= 4799 -> is_finite (sin_inc s) = true -> 0 <= B2R (sin_inc s) <= 4800 ->
  exists y s', sin_process m s = Ok (y, s') /\ is_finite y = true /\
    (0 <= B2R (sin_ind s) -> Rabs (B2R y - sin (2 * PI * B2R (sin_ind s) / 4800)) <= bpow radix2 (-21)) /\
    (B2R (sin_ind s) < 0 -> B2R y = 0).
Proof.
  intros m s Sb Sz Sa F1 H1 F2 H2. assert (I : sin_inv s) by (repeat split; try assumption; lra).
  destruct (Rle_lt_dec 0 (B2R (sin_ind s))) as [P|P].
  - destruct (sin_sample_pos m s Sb Sa I P) as (y & E & F & A). exists y, (sin_adv s). split; [exact E|]. split; [exact F|]. split; intro; [exact A|lra].
  - destruct (sin_sample_neg m s Sb Sz I P) as (y & E & F & A). exists y, (sin_adv s). split; [exact E|]. split; [exact F|]. split; intro; [lra|exact A].
Qed.
Example C80_ex : sin_bounded ideal_libm /\ sin_zero ideal_libm /\ sin_accurate ideal_libm.
Proof. exact (conj ideal_sin_bounded (conj ideal_sin_zero ideal_sin_accurate)). Qed.
