(** * C41-C49, C55, C57, C81: Delay, Echo, ADSR, Generic, Gain, Passthrough *)

From Coq Require Import ZArith List Bool Reals Lra Lia.
From Flocq Require Import Core.Core IEEE754.BinarySingleNaN.
From Verif Require Import Model.Floats Model.Utils Model.Generators Model.Modifiers Spec.Libm Proof.FloatFacts Proof.SampleFormatP Proof.FormatsP
  Proof.LibmP Proof.UtilsP Proof.ModifiersP Proof.DurationP Proof.EchoP Proof.GenericP Proof.AdsrP Proof.AdsrP2 Proof.AdsrP3 Proof.AdsrP4.
Import ListNotations.
Local Open Scope R_scope.

Definition fZ (z : Z) : f32 := of_Z z.
Definition outs {S} (x : res (list f32 * S)) : option (list SpecFloat.spec_float) :=
  match x with Ok (ys, _) => Some (map B2SF ys) | Panic => None end.
Definition outsZ (zs : list Z) : option (list SpecFloat.spec_float) := Some (map (fun z => B2SF (fZ z)) zs).

(** ** C41 *)
Theorem C41_delay_exact : forall (n : nat) (xs : list f32),
  exists ys q, run_res delay_process (repeat f0 n) xs = Ok (ys, q) /\ length ys = length xs /\ length q = n /\
    forall k, (k < length xs)%nat ->
      nth_error ys k = if (k <? n)%nat then Some f0 else nth_error xs (k - n).
Proof. exact delay_exact. Qed.
(** ... and [delay_new] builds exactly such a state *)
Theorem C41_delay_new_state : forall d : duration, delay_new d = repeat f0 (Z.to_nat (seconds_to_samples d)).
Proof. reflexivity. Qed.
Example C41_ex : outs (run_res delay_process (delay_new (mkDur 0 41667)) [fZ 1; fZ 2; fZ 3; fZ 4]) = outsZ [0; 0; 1; 2]%Z
  /\ outs (run_res delay_process (delay_new (mkDur 0 0)) [fZ 1; fZ 2]) = outsZ [1; 2]%Z.
Proof. split; vm_compute; reflexivity. Qed.

(** ** C42 *)
Theorem C42_delay_length : forall d : duration, (0 <= secs d < 2 ^ 32)%Z /\ (0 <= nanos d < 1000000000)%Z ->
  Rabs (IZR (Z.of_nat (length (delay_new d))) - 48000 * (IZR (secs d) + IZR (nanos d) / 1000000000)) <= / 2 + / 32.
Proof. intros d H. rewrite delay_new_length. exact (s2s_accurate d H). Qed.
Theorem C42_get_delay_round_trip : forall (md : dur_mode) (n : Z), (0 <= n <= 2 ^ 32)%Z ->
  exists d, delay_get_delay md (repeat f0 (Z.to_nat n)) = Ok d /\ Z.of_nat (length (delay_new d)) = n /\
    Rabs (IZR (secs d) + IZR (nanos d) / 1000000000 - IZR n / 48000) <= 2 / 1000000000.
Proof.
  intros md n H. destruct (delay_length_round_trip md n H) as (d & E & L & B & _). exists d.
  split; [exact E|]. split; [rewrite delay_new_length; exact L|exact B].
Qed.
(** what Duration::from_secs_f64 makes of a number of seconds, in each of the three versions of the standard library *)
Theorem C42_from_secs : forall (md : dur_mode) (x : f64), is_finite x = true -> 0 <= B2R x < bpow radix2 63 ->
  let n := match md with MulTrunc => Zfloor (rnd64 (B2R x * 1000000000)) | ExactTrunc => Zfloor (B2R x * 1000000000) | ExactNearest => ZnearestE (B2R x * 1000000000) end in
  from_secs_f64 md x = Ok (mkDur (n / 1000000000) (n mod 1000000000)).
Proof. exact from_secs_exact. Qed.
(** 2^-10 s = 976562.5 ns *)
Example C42_ex_tie : from_secs_f64 ExactNearest (lit 1 (-10)) = Ok (mkDur 0 976562) /\ from_secs_f64 ExactNearest (lit 3 (-10)) = Ok (mkDur 0 2929688).
Proof. split; vm_compute; reflexivity. Qed.
Example C42_ex : delay_get_delay ExactNearest (repeat f0 7) = Ok (mkDur 0 145833) /\ length (delay_new (mkDur 0 145833)) = 7%nat.
Proof. split; vm_compute; reflexivity. Qed.

(** ** C43 *)
Theorem C43_delay_clone_length : forall q : list f32, delay_clone q = repeat f0 (length q * Z.to_nat 48000).
Proof.
  intro q. rewrite <- delay_clone_length. unfold delay_clone, zeros. rewrite repeat_length. reflexivity.
Qed.
Theorem C43_echo_clone_length : forall e : echo,
  e_delay (echo_clone e) = repeat f0 (length (e_delay e) * Z.to_nat 48000) /\ e_gain (echo_clone e) = e_gain e.
Proof.
  intro e. split; [|reflexivity]. rewrite <- (proj1 (echo_clone_length e)). unfold echo_clone, zeros. cbn [e_delay].
  rewrite repeat_length. reflexivity.
Qed.
(** relied on: the clone of a delay line has its length *)
Theorem C43_clone_same_delay_refuted : forall q : list f32, q <> [] -> (length q < length (delay_clone q))%nat.
Proof.
  intros q H. rewrite delay_clone_length. destruct q as [|x q]; [congruence|]. cbn [length].
  assert (Z.to_nat 48000 > 1)%nat by lia. nia.
Qed.
Example C43_ex : Z.of_nat (length (delay_clone (delay_new (mkDur 0 41667)))) = 96000%Z.
Proof. vm_compute. reflexivity. Qed.

(** ** C44 *)
Theorem C44_echo_recurrence : forall (n : nat) (g : f32) (xs : list f32), (0 < n)%nat ->
  exists ys q', run_res echo_process (mkEcho (repeat f0 n) g) xs = Ok (ys, mkEcho q' g) /\
    length ys = length xs /\ length q' = n /\
    forall k x, nth_error xs k = Some x ->
      exists o, (if (k <? n)%nat then o = f0 else nth_error ys (k - n) = Some o) /\
        nth_error ys k = Some (fadd (fmul o g) x).
Proof. exact echo_recurrence. Qed.
(** the length is 48000*d truncated *)
Theorem C44_echo_new_state : forall (d : duration) (g : f64), (0 <= secs d < 2 ^ 32)%Z /\ (0 <= nanos d < 1000000000)%Z ->
  exists n, echo_new d g = mkEcho (repeat f0 n) (to32 g) /\
    INR n - / 32 <= 48000 * (IZR (secs d) + IZR (nanos d) / 1000000000) < INR n + 1 + / 32.
Proof.
  intros d g H. destruct (echo_new_length d g H) as (A & B & C). exists (length (e_delay (echo_new d g))).
  split; [|rewrite INR_IZR_INZ; exact A]. destruct (echo_new d g) as [q g']. cbn [e_delay e_gain] in *. congruence.
Qed.
(** a duration below one sample (20833.3 ns): the first call panics *)
Theorem C44_echo_short_panics : forall (d : duration) (g : f64) (x : f32), secs d = 0%Z -> (0 <= nanos d <= 20833)%Z ->
  echo_process (echo_new d g) x = Panic.
Proof. intros d g x S0 [N0 N]. apply echo_short; auto. unfold dur_ok, GIGA. lia. Qed.
Example C44_ex : outs (run_res echo_process (echo_new (mkDur 0 42000) (lit 1 (-1))) [fZ 8; fZ 0; fZ 0; fZ 0; fZ 0; fZ 0]) = outsZ [8; 0; 4; 0; 2; 0]%Z.
Proof. vm_compute. reflexivity. Qed.

(** ** C45 *)
Theorem C45_echo_bounded : forall (n : nat) (g : f32) (X : R) (B : f32) (xs : list f32),
  (0 < n)%nat -> is_finite g = true -> is_finite B = true -> bpow radix2 (-125) <= B2R B -> 0 <= X ->
  Rabs (B2R g) * B2R B + X <= B2R B ->
  (forall x, In x xs -> is_finite x = true /\ Rabs (B2R x) <= X) ->
  exists ys e', run_res echo_process (mkEcho (repeat f0 n) g) xs = Ok (ys, e') /\
    forall y, In y ys -> is_finite y = true /\ Rabs (B2R y) <= B2R B.
Proof.
  intros n g X B xs Hn Fg FB HB HX H Hx. apply (echo_bounded n g X (B2R B)); auto; [apply fmt_B2R|].
  split; [exact HB|]. pose proof (abs_B2R_lt B). pose proof (Rle_abs (B2R B)). lra.
Qed.
Example C45_ex : Rabs (B2R (lit 7 (-3) : f32)) * B2R (fZ 8) + 1 <= B2R (fZ 8) /\ is_finite (fZ 8) = true /\ bpow radix2 (-125) <= B2R (fZ 8)
  /\ is_finite (lit 7 (-3) : f32) = true.
Proof.
  assert (E : B2R (lit 7 (-3) : f32) = 7 / 8).
  { destruct (lit_ok (prec:=24) (emax:=128) 7 (-3)) as [_ V].
    - apply fmt_FLT; [simpl; lia|unfold SpecFloat.emin; lia].
    - change (bpow radix2 (-3)) with (/ 8). apply Rlt_trans with 1; [apply Rabs_def1; lra|]. change 1 with (bpow radix2 0). apply bpow_lt. lia.
    - rewrite V. change (bpow radix2 (-3)) with (/ 8). lra. }
  destruct (of_Z32 8 ltac:(lia)) as [F V]. unfold fZ. rewrite E, V. rewrite Rabs_pos_eq by lra.
  split; [lra|]. split; [exact F|]. split; [|vm_compute; reflexivity].
  apply Rle_trans with (bpow radix2 3); [apply bpow_le; lia|]. change (bpow radix2 3) with 8. lra.
Qed.

(** ** C46: an ADSR history is a list of process calls ([Proc x]) and release calls ([Rel]) *)
Theorem C46_adsr_gain_range : forall (m : libm) (a d r : duration) (s : f64) (h : list ev), pow10_unit m -> s <> B754_infinity true ->
  pos_dur a -> pos_dur d -> pos_dur r ->
  let e := adsr_after (adsr_new m a d s r) h in is_finite (ad_g e) = true /\ 0 <= B2R (ad_g e) <= 1.
Proof.
  intros m a d r s h HU Hs [A1 A2] [D1 D2] [R1 R2]. destruct (adsr_new_ok m a d r s HU Hs A1 D1 R1 A2 D2 R2) as [K I].
  destruct (adsr_history _ K I h) as (_ & F & G & _). split; assumption.
Qed.
(** what one more call does after any history: gain monotone per phase, phases in order, output = x*gain *)
Theorem C46_adsr_next_call : forall (m : libm) (a d r : duration) (s : f64) (h : list ev) (x : f32), pow10_unit m -> s <> B754_infinity true ->
  pos_dur a -> pos_dur d -> pos_dur r ->
  let e := adsr_after (adsr_new m a d s r) h in let e' := snd (adsr_process e x) in
  fst (adsr_process e x) = (match ad_state e with Stopped => f0 | _ => fmul x (ad_g e') end) /\
  match ad_state e with
  | Attack => B2R (ad_g e) <= B2R (ad_g e') /\ (ad_state e' = Attack \/ ad_state e' = Decay /\ ad_g e' = of_Z 1)
  | Decay => B2R (ad_g e') <= B2R (ad_g e) /\ (ad_state e' = Decay \/ ad_state e' = Sustain /\ ad_g e' = ad_s e)
  | Sustain => ad_state e' = Sustain /\ ad_g e' = ad_g e
  | Release => B2R (ad_g e') <= B2R (ad_g e) /\ (ad_state e' = Release \/ ad_state e' = Stopped /\ ad_g e' = f0)
  | Stopped => ad_state e' = Stopped /\ ad_g e' = f0
  end.
Proof.
  intros m a d r s h x HU Hs [A1 A2] [D1 D2] [R1 R2]. destruct (adsr_new_ok m a d r s HU Hs A1 D1 R1 A2 D2 R2) as [K I].
  destruct (adsr_history _ K I h) as (P & I'). cbv zeta. set (e := adsr_after (adsr_new m a d s r) h) in *.
  pose proof (adsr_step e x (adsr_params_ok _ _ P K) I') as ST. destruct (adsr_process e x) as [y e']. destruct ST as (_ & _ & N & Y).
  split; [exact Y|exact N].
Qed.
(** release phases exactly after release was called *)
Theorem C46_adsr_phases : forall (m : libm) (a d r : duration) (s : f64) (h : list ev),
  let st := ad_state (adsr_after (adsr_new m a d s r) h) in
  (~ In Rel h -> st = Attack \/ st = Decay \/ st = Sustain) /\ (In Rel h -> st = Release \/ st = Stopped).
Proof. intros m a d r s h. exact (adsr_phase (adsr_new m a d s r) h eq_refl). Qed.
Theorem C46_adsr_stopped_silent : forall (e : adsr) (xs : list f32), ad_state e = Stopped ->
  run adsr_process e xs = (repeat f0 (length xs), e).
Proof. exact adsr_stopped. Qed.
(** releasing a stopped envelope again: one zero-gain sample and stopped again *)
Theorem C46_adsr_stopped_release : forall (m : libm) (a d r : duration) (s : f64) (h : list ev) (x : f32), pow10_unit m -> s <> B754_infinity true ->
  pos_dur a -> pos_dur d -> pos_dur r ->
  let e := adsr_after (adsr_new m a d s r) h in ad_state e = Stopped ->
  let '(y, e') := adsr_process (adsr_release e) x in y = fmul x f0 /\ ad_state e' = Stopped.
Proof.
  intros m a d r s h x HU Hs [A1 A2] [D1 D2] [R1 R2]. destruct (adsr_new_ok m a d r s HU Hs A1 D1 R1 A2 D2 R2) as [K I].
  destruct (adsr_history _ K I h) as (P & I'). cbv zeta. intro S1.
  exact (adsr_stopped_release _ x (adsr_params_ok _ _ P K) I' S1).
Qed.
(** libm constant 1/2 for 10^y: a library meeting [pow10_unit] that computes *)
Definition half_libm : libm :=
  {| sin64 := fun x => x; cos64 := fun x => x; tan64 := fun x => x; tan32 := fun x => x; pow64 := fun _ _ => lit 1 (-1); log10_64 := fun x => x |}.
Lemma half_unit : pow10_unit half_libm.
Proof.
  intros y _ _. cbn [pow64 half_libm]. destruct (lit_ok (prec:=53) (emax:=1024) 1 (-1)) as [F V].
  - apply fmt_FLT; [simpl; lia|unfold SpecFloat.emin; lia].
  - change (bpow radix2 (-1)) with (/ 2). apply Rlt_trans with 1; [apply Rabs_def1; lra|]. change 1 with (bpow radix2 0). apply bpow_lt. lia.
  - split; [exact F|]. rewrite V. change (bpow radix2 (-1)) with (/ 2). lra.
Qed.
(** 4-sample attack, 2-sample decay to 1/2, 4-sample release *)
Definition adsr_demo : adsr := adsr_new half_libm (mkDur 0 83000) (mkDur 0 41000) (of_Z (-6)) (mkDur 0 83000).
Example C46_ex : map ad_state (map (fun n => adsr_after adsr_demo (repeat (Proc (fZ 1)) n)) [0; 3; 4; 5; 6; 9]%nat)
    = [Attack; Attack; Decay; Decay; Sustain; Sustain]
  /\ map ad_state (map (fun n => adsr_after adsr_demo (repeat (Proc (fZ 1)) 6 ++ Rel :: repeat (Proc (fZ 1)) n)) [0; 1; 3; 4; 9]%nat)
    = [Release; Release; Release; Stopped; Stopped]
  /\ pow10_unit half_libm /\ pos_dur (mkDur 0 83000) /\ pos_dur (mkDur 0 41000) /\ pow10_unit ideal_libm.
Proof.
  split; [vm_compute; reflexivity|]. split; [vm_compute; reflexivity|]. split; [exact half_unit|].
  unfold pos_dur, dur_ok, GIGA. cbn [secs nanos]. split; [lia|]. split; [lia|exact ideal_pow10_unit].
Qed.

(** ** C47: [after_n e xs] is the state after processing the samples [xs] *)
Theorem C47_attack_linear : forall (m : libm) (a d r : duration) (s : f64) (xs : list f32), pow10_unit m -> s <> B754_infinity true ->
  pos_dur a -> pos_dur d -> pos_dur r -> 48000 * dur_R a <= 4194304 -> 2 * (48000 * dur_R a) + 2 <= INR (length xs) ->
  ad_state (after_n (adsr_new m a d s r) xs) <> Attack.
Proof. intros m a d r s xs. exact (adsr_attack_linear m a d s r xs). Qed.
Theorem C47_attack_completes : forall (m : libm) (a d r : duration) (s : f64) (xs : list f32), pow10_unit m -> s <> B754_infinity true ->
  pos_dur a -> pos_dur d -> pos_dur r -> (secs a <= 698)%Z -> (2 ^ 26 <= Z.of_nat (length xs))%Z ->
  ad_state (after_n (adsr_new m a d s r) xs) <> Attack.
Proof. intros m a d r s xs. exact (adsr_attack_699 m a d s r xs). Qed.
(** an attack of 700 s or more never completes: the gain stays at or below 1/2 *)
Theorem C47_attack_completes_refuted : forall (m : libm) (a d r : duration) (s : f64) (xs : list f32), pow10_unit m -> s <> B754_infinity true ->
  (0 <= secs a < 2 ^ 32)%Z /\ (0 <= nanos a < 1000000000)%Z -> pos_dur d -> pos_dur r -> (700 <= secs a)%Z ->
  ad_state (after_n (adsr_new m a d s r) xs) = Attack /\ B2R (ad_g (after_n (adsr_new m a d s r) xs)) <= / 2.
Proof. intros m a d r s xs HM Hs Da. exact (adsr_attack_700 m a d s r xs HM Hs Da). Qed.
Example C47_ex : ad_state (after_n adsr_demo (repeat (fZ 1) 3)) = Attack /\ ad_state (after_n adsr_demo (repeat (fZ 1) 4)) = Decay
  /\ 48000 * dur_R (mkDur 0 83000) <= 4194304 /\ 2 * (48000 * dur_R (mkDur 0 83000)) + 2 <= INR 10.
Proof.
  split; [vm_compute; reflexivity|]. split; [vm_compute; reflexivity|]. unfold dur_R. cbn [secs nanos].
  split; [lra|]. rewrite INR_IZR_INZ. simpl. lra.
Qed.

(** ** C48: from any state [e] of a history, with gain at most 2^k *)
Theorem C48_release_completes : forall (m : libm) (a d r : duration) (s : f64) (h : list ev) (k : Z) (xs : list f32), pow10_unit m -> s <> B754_infinity true ->
  pos_dur a -> pos_dur d -> pos_dur r ->
  let e := adsr_after (adsr_new m a d s r) h in
  is_finite (ad_r e) = true -> (-100 <= k <= 0)%Z -> B2R (ad_g e) <= bpow radix2 k -> B2R (ad_r e) < - bpow radix2 (k - 25) ->
  (2 ^ 26 <= Z.of_nat (length xs))%Z -> ad_state (after_n (adsr_release e) xs) = Stopped.
Proof.
  intros m a d r s h k xs HU Hs [A1 A2] [D1 D2] [R1 R2]. destruct (adsr_new_ok m a d r s HU Hs A1 D1 R1 A2 D2 R2) as [K I].
  destruct (adsr_history _ K I h) as (P & I'). cbv zeta. intros F Hk G S1 L.
  exact (release_completes _ k xs (adsr_params_ok _ _ P K) I' F Hk G S1 L).
Qed.
Theorem C48_release_linear : forall (m : libm) (a d r : duration) (s : f64) (h : list ev) (k : Z) (xs : list f32), pow10_unit m -> s <> B754_infinity true ->
  pos_dur a -> pos_dur d -> pos_dur r ->
  let e := adsr_after (adsr_new m a d s r) h in
  is_finite (ad_r e) = true -> (-100 <= k <= 0)%Z -> B2R (ad_g e) <= bpow radix2 k -> B2R (ad_r e) <= - bpow radix2 (k - 24) ->
  xs <> [] -> 2 * B2R (ad_g e) <= INR (length xs) * - B2R (ad_r e) -> ad_state (after_n (adsr_release e) xs) = Stopped.
Proof.
  intros m a d r s h k xs HU Hs [A1 A2] [D1 D2] [R1 R2]. destruct (adsr_new_ok m a d r s HU Hs A1 D1 R1 A2 D2 R2) as [K I].
  destruct (adsr_history _ K I h) as (P & I'). cbv zeta. intros F Hk G S1 NE L.
  exact (release_completes_fast _ k xs (adsr_params_ok _ _ P K) I' F Hk G S1 NE L).
Qed.
(** an infinite step (a release time so short that the quotient overflows) stops at once *)
Theorem C48_release_infinite : forall (m : libm) (a d r : duration) (s : f64) (h : list ev) (x : f32), pow10_unit m -> s <> B754_infinity true ->
  pos_dur a -> pos_dur d -> pos_dur r ->
  let e := adsr_after (adsr_new m a d s r) h in is_finite (ad_r e) = false ->
  ad_state (snd (adsr_process (adsr_release e) x)) = Stopped.
Proof.
  intros m a d r s h x HU Hs [A1 A2] [D1 D2] [R1 R2]. destruct (adsr_new_ok m a d r s HU Hs A1 D1 R1 A2 D2 R2) as [K I].
  destruct (adsr_history _ K I h) as (P & I'). cbv zeta. intros F.
  exact (release_infinite (adsr_release _) x (adsr_params_ok _ _ P K) (release_inv _ I') F eq_refl).
Qed.
(** relied on: release always ends.  At gain exactly 2^k a step of at most half an ulp never moves it *)
Theorem C48_release_stalls : forall (m : libm) (a d r : duration) (s : f64) (h : list ev) (k : Z) (xs : list f32), pow10_unit m -> s <> B754_infinity true ->
  pos_dur a -> pos_dur d -> pos_dur r ->
  let e := adsr_release (adsr_after (adsr_new m a d s r) h) in
  is_finite (ad_r e) = true -> (-100 <= k <= 0)%Z -> B2R (ad_g e) = bpow radix2 k -> - bpow radix2 (k - 25) <= B2R (ad_r e) ->
  run adsr_process e xs = (map (fun x => fmul x (ad_g e)) xs, e).
Proof.
  intros m a d r s h k xs HU Hs [A1 A2] [D1 D2] [R1 R2]. destruct (adsr_new_ok m a d r s HU Hs A1 D1 R1 A2 D2 R2) as [K I].
  destruct (adsr_history _ K I h) as (P & I'). cbv zeta. intros F Hk G S1.
  apply (fall_stalls _ Release (ad_r (adsr_after (adsr_new m a d s r) h)) f0 k xs); auto using release_fall, release_inv.
  - exact (adsr_params_ok _ _ P K).
  - change (B2R (f0 : f32)) with 0. apply bpow_gt_0.
Qed.
(** concretely: sustain -60 dB, release 1 s, released at the end of a 20 us attack *)
Theorem C48_release_completes_refuted : forall (m : libm) (d : duration) (x : f32) (xs : list f32), pow10_unit m -> pow10_accurate m -> pos_dur d ->
  let e := adsr_release (snd (adsr_process (adsr_new m (mkDur 0 20000) d (of_Z (-60)) (mkDur 1 0)) x)) in
  run adsr_process e xs = (map (fun x => fmul x (of_Z 1)) xs, e) /\ ad_state e = Release.
Proof. exact release_stuck. Qed.
Example C48_ex : pow10_unit ideal_libm /\ pow10_accurate ideal_libm /\ pos_dur (mkDur 1 0)
  /\ ad_state (after_n (adsr_release (adsr_after adsr_demo (repeat (Proc (fZ 1)) 6))) (repeat (fZ 1) 4)) = Stopped
  /\ fle (ad_r adsr_demo) (fneg (lit 1 (-24))) = true.
Proof.
  split; [exact ideal_pow10_unit|]. split; [exact ideal_pow10|]. split; [apply secs_pos; lia|]. split; vm_compute; reflexivity.
Qed.

(** ** C49: [adsr_outs e h] lists the outputs of the process calls of the history [h] *)
Theorem C49_zero_decay_nan : forall (m : libm) (a r : duration) (s : f64),
  pow64 m (of_Z 10) f0 = of_Z 1 -> fle f0 s = true -> ad_d (adsr_new m a (mkDur 0 0) s r) = B754_nan.
Proof. intros m a r s HM Hs. exact (zero_decay_nan m a (mkDur 0 0) r s HM Hs eq_refl eq_refl). Qed.
Theorem C49_nan_forever : forall (e : adsr) (x : f32) (h : list ev), ad_d e = B754_nan -> ad_state e = Decay ->
  forall y, In y (adsr_outs e (Proc x :: h)) -> y = B754_nan.
Proof. exact nan_decay. Qed.
Definition one_libm : libm :=
  {| sin64 := fun x => x; cos64 := fun x => x; tan64 := fun x => x; tan32 := fun x => x; pow64 := fun _ _ => of_Z 1; log10_64 := fun x => x |}.
Example C49_ex : pow64 one_libm (of_Z 10) f0 = of_Z 1 /\ fle (f0 : f64) f0 = true /\
  map B2SF (adsr_outs (adsr_new one_libm us20 (mkDur 0 0) f0 (mkDur 1 0)) [Proc (fZ 1); Proc (fZ 1); Rel; Proc (fZ 1)])
    = [B2SF (fZ 1); SpecFloat.S754_nan; SpecFloat.S754_nan].
Proof. split; [reflexivity|]. split; vm_compute; reflexivity. Qed.

(** ** C55: [past l k] is the k-th sample, 0 before the start; [dot] adds the products one after the other *)
Theorem C55_generic_difference_equation : forall (z p : list (Z * f32)),
  (forall c, In c z -> (0 <= fst c < back_len z)%Z) -> (forall c, In c p -> (0 <= fst c < back_len p)%Z) ->
  forall xs, exists ys s, run_res generic_process (generic_new z p) xs = Ok (ys, s) /\ length ys = length xs /\
    forall n, (n < length xs)%nat ->
      nth_error ys n = Some (dot p (fun j => past ys (Z.of_nat n - 1 - j)) (dot z (fun i => past xs (Z.of_nat n - i)) f0)).
Proof.
  intros z p Hz Hp xs. destruct (generic_run z p Hz Hp xs) as (ys & s & E & _ & _ & L & _ & _ & H).
  exists ys, s. auto.
Qed.
Theorem C55_generic_panics : forall (z p : list (Z * f32)) (x : f32), (forall c, In c z \/ In c p -> (0 <= fst c)%Z) ->
  (exists c, In c z /\ (back_len z <= fst c)%Z) \/ (exists c, In c p /\ (back_len p <= fst c)%Z) ->
  generic_process (generic_new z p) x = Panic.
Proof. exact generic_panics. Qed.
Example C55_ex : outs (run_res generic_process (generic_new [(0, fZ 1); (2, fZ 3)]%Z [(0, fZ 2)]%Z) [fZ 1; fZ 0; fZ 0; fZ 5]) = outsZ [1; 2; 7; 19]%Z
  /\ (forall c, In c [(0, fZ 1); (2, fZ 3)]%Z -> (0 <= fst c < back_len [(0, fZ 1); (2, fZ 3)]%Z)%Z)
  /\ outs (run_res generic_process (generic_new [(2, fZ 1); (0, fZ 3)]%Z []) [fZ 1]) = None.
Proof.
  split; [vm_compute; reflexivity|]. split; [|vm_compute; reflexivity].
  intros c [<-|[<-|[]]]; cbn; lia.
Qed.

(** ** C57 *)
Theorem C57_gain : forall (a : f32) (xs : list f32), run gain_process a xs = (map (fun x => fmul x a) xs, a).
Proof. exact gain_run. Qed.
Theorem C57_passthrough : forall xs : list f32, run passthrough_process tt xs = (xs, tt).
Proof. exact passthrough_run. Qed.
Theorem C57_zero : forall s : unit, zero_process s = (f0, s).
Proof. intro s. reflexivity. Qed.
Example C57_ex : map B2SF (fst (run gain_process (fZ 3) [fZ 1; fZ (-2)])) = map B2SF [fZ 3; fZ (-6)].
Proof. vm_compute. reflexivity. Qed.

(** ** C81: decay *)
Theorem C81_decay_completes : forall (m : libm) (a d r : duration) (s : f64) (h : list ev) (xs : list f32), pow10_unit m -> s <> B754_infinity true ->
  pos_dur a -> pos_dur d -> pos_dur r ->
  let e := adsr_after (adsr_new m a d s r) h in ad_state e = Decay -> is_finite (ad_d e) = true -> B2R (ad_d e) < - bpow radix2 (-25) ->
  (2 ^ 26 <= Z.of_nat (length xs))%Z -> ad_state (after_n e xs) <> Decay.
Proof.
  intros m a d r s h xs HU Hs [A1 A2] [D1 D2] [R1 R2]. destruct (adsr_new_ok m a d r s HU Hs A1 D1 R1 A2 D2 R2) as [K I].
  destruct (adsr_history _ K I h) as (P & I'). cbv zeta. intros S1 F Hd L.
  apply (fall_completes _ Decay _ _ 0 xs (adsr_params_ok _ _ P K) I' (or_introl (conj eq_refl (conj eq_refl eq_refl))) S1 F); auto; [lia|].
  change (bpow radix2 0) with 1. apply I'.
Qed.
Theorem C81_decay_linear : forall (m : libm) (a d r : duration) (s : f64) (h : list ev) (xs : list f32), pow10_unit m -> s <> B754_infinity true ->
  pos_dur a -> pos_dur d -> pos_dur r ->
  let e := adsr_after (adsr_new m a d s r) h in ad_state e = Decay -> is_finite (ad_d e) = true -> B2R (ad_d e) <= - bpow radix2 (-24) ->
  xs <> [] -> 2 * B2R (ad_g e) <= INR (length xs) * - B2R (ad_d e) -> ad_state (after_n e xs) <> Decay.
Proof.
  intros m a d r s h xs HU Hs [A1 A2] [D1 D2] [R1 R2]. destruct (adsr_new_ok m a d r s HU Hs A1 D1 R1 A2 D2 R2) as [K I].
  destruct (adsr_history _ K I h) as (P & I'). cbv zeta. intros S1 F Hd NE L.
  apply (fall_completes_fast _ Decay _ _ 0 xs (adsr_params_ok _ _ P K) I' (or_introl (conj eq_refl (conj eq_refl eq_refl))) S1 F); auto; [lia|].
  change (bpow radix2 0) with 1. apply I'.
Qed.
(** sustain -1/8 dB, decay 12 s: the gain stays 1 forever, the sustain level (below 1) is never reached *)
Theorem C81_decay_completes_refuted : forall (m : libm) (r : duration) (x : f32) (xs : list f32), pow10_unit m -> pow10_accurate m -> pos_dur r ->
  let e := snd (adsr_process (adsr_new m (mkDur 0 20000) (mkDur 12 0) (lit (-1) (-3)) r) x) in
  run adsr_process e xs = (map (fun x => fmul x (of_Z 1)) xs, e) /\ ad_state e = Decay /\ B2R (ad_s e) < 1.
Proof. exact decay_stuck. Qed.
Example C81_ex : ad_state (adsr_after adsr_demo (repeat (Proc (fZ 1)) 4)) = Decay /\ fle (ad_d adsr_demo) (fneg (lit 1 (-24))) = true
  /\ ad_state (adsr_after adsr_demo (repeat (Proc (fZ 1)) 6)) = Sustain.
Proof. repeat split; vm_compute; reflexivity. Qed.
