(** * C08-C13: Mono and Stereo *)

From Coq Require Import ZArith List Bool Reals Lra Lia.
From Flocq Require Import Core.Core IEEE754.BinarySingleNaN.
From Verif Require Import Model.Floats Model.SampleFormat Model.Mono Model.Stereo Spec.Libm
  Proof.FloatFacts Proof.SampleFormatP Proof.FormatsP Proof.FormatsVecP Proof.LibmP Proof.PanP.
Import ListNotations.

(** C08 *)
Theorem C08_mono_op_assign : forall (a b : Mono) (r : f32) (g : f64),
  mono_add a b = mono_add_assign a b /\ mono_mul a b = mono_mul_assign a b /\
  mono_mul_s a r = mono_mul_s_assign a r /\ mono_mul_m a g = mono_mul_m_assign a g /\
  mono_mul_s a r = mono_mul a (mkMono r) /\
  mono_neg (mono_neg a) = a.
Proof. exact mono_op_assign. Qed.

(** [a - b] is the rounded sum, [a -= b] the rounded difference *)
Theorem C08_mono_sub_adds : forall a b : f32, is_finite a = true -> is_finite b = true ->
  (Rabs (B2R a) <= bpow radix2 126)%R -> (Rabs (B2R b) <= bpow radix2 126)%R ->
  B2R (mono (mono_sub (mkMono a) (mkMono b))) =
    round radix2 (FLT_exp (-149) 24) ZnearestE (B2R a + B2R b) /\
  B2R (mono (mono_sub_assign (mkMono a) (mkMono b))) =
    round radix2 (FLT_exp (-149) 24) ZnearestE (B2R a - B2R b).
Proof. exact mono_sub_adds. Qed.

(** so the two subtractions differ whenever 0 < |b|, |a| <= |b| *)
Theorem C08_mono_sub_differs : forall a b : f32, is_finite a = true -> is_finite b = true ->
  (Rabs (B2R a) <= Rabs (B2R b))%R -> (Rabs (B2R b) <= bpow radix2 126)%R -> B2R b <> 0%R ->
  mono_sub (mkMono a) (mkMono b) <> mono_sub_assign (mkMono a) (mkMono b).
Proof. exact mono_sub_differs. Qed.

Theorem C08_mono_sub_refuted : exists a b : Mono, mono_sub a b <> mono_sub_assign a b.
Proof.
  exists (mkMono (of_Z 3)), (mkMono (of_Z 2)). intro E.
  apply (f_equal (fun s => B2SF (mono s))) in E. vm_compute in E. discriminate E.
Qed.

(** [new] makes the sample that changes nothing when added *)
Theorem C08_new_is_silence : forall a : Mono, is_finite (mono a) = true ->
  is_finite (mono (mono_add mono_new a)) = true /\ B2R (mono (mono_add mono_new a)) = B2R (mono a) /\
  is_finite (mono (mono_add a mono_new)) = true /\ B2R (mono (mono_add a mono_new)) = B2R (mono a).
Proof. exact new_silent. Qed.

Example C08_ex : let a : f32 := of_Z 3 in let b : f32 := lit (-7) (-1) in
  is_finite a = true /\ is_finite b = true /\ B2R a = 3%R /\ B2R b = (-7 / 2)%R /\
  (Rabs (B2R b) <= bpow radix2 126)%R /\
  mono_sub (mkMono a) (mkMono b) = mkMono (lit (-1) (-1)) /\
  mono_sub_assign (mkMono a) (mkMono b) = mkMono (lit 13 (-1)).
Proof.
  cbv zeta. split; [reflexivity|]. split; [reflexivity|].
  assert (A : B2R (of_Z 3 : f32) = 3%R) by (apply (of_Z32 3); lia).
  destruct (B2R_of_SF (lit (-7) (-1) : f32) true 14680064 (-22)) as [_ B]; [vm_compute; reflexivity|].
  assert (B' : B2R (lit (-7) (-1) : f32) = (-7 / 2)%R).
  { rewrite B. change (bpow radix2 (-22)) with (/ 4194304)%R. simpl cond_Zopp. lra. }
  split; [exact A|]. split; [exact B'|]. split.
  - rewrite B'. apply Rle_trans with (bpow radix2 3); [simpl; apply Rabs_le; lra|apply bpow_le; lia].
  - unfold mono_sub, mono_sub_assign; cbn [mono].
    split; apply (f_equal mkMono); apply B2SF_inj; vm_compute; reflexivity.
Qed.

(** C09: channel [i] of each Stereo operator is the Mono operator on channel [i] *)
Theorem C09_stereo_op_channels : forall (a b : Stereo) (r : f32) (g : f64) (i : bool),
  chan (stereo_add a b) i = mono_add (chan a i) (chan b i) /\
  chan (stereo_add_assign a b) i = mono_add (chan a i) (chan b i) /\
  chan (stereo_sub a b) i = mono_sub_assign (chan a i) (chan b i) /\
  chan (stereo_sub_assign a b) i = mono_sub_assign (chan a i) (chan b i) /\
  chan (stereo_mul a b) i = mono_mul (chan a i) (chan b i) /\
  chan (stereo_mul_assign a b) i = mono_mul (chan a i) (chan b i) /\
  chan (stereo_mul_s a r) i = mono_mul_s (chan a i) r /\
  chan (stereo_mul_s_assign a r) i = mono_mul_s (chan a i) r /\
  chan (stereo_mul_m a g) i = mono_mul_m (chan a i) g /\
  chan (stereo_neg a) i = mono_neg (chan a i).
Proof. exact stereo_op_channels. Qed.

Theorem C09_stereo_mul_m_refuted : exists (a : Stereo) (r : f64),
  stereo_mul_m a r <> stereo_mul_m_assign a r.
Proof. exact stereo_mul_m_refuted. Qed.

(** but they are close *)
Theorem C09_stereo_mul_m_close : forall (a : Stereo) (r : f64) (i : bool),
  is_finite (mono (chan a i)) = true -> is_finite r = true ->
  (bpow radix2 (-60) <= Rabs (B2R (mono (chan a i))) <= bpow radix2 60)%R ->
  (bpow radix2 (-60) <= Rabs (B2R r) <= bpow radix2 60)%R ->
  (Rabs (B2R (mono (chan (stereo_mul_m a r) i)) - B2R (mono (chan (stereo_mul_m_assign a r) i)))
    <= bpow radix2 (-22) * Rabs (B2R (mono (chan a i)) * B2R r))%R.
Proof. exact stereo_mul_m_close. Qed.

Theorem C09_new_is_silence : forall (a : Stereo) (i : bool), is_finite (mono (chan a i)) = true ->
  is_finite (mono (chan (stereo_add stereo_new a) i)) = true /\ B2R (mono (chan (stereo_add stereo_new a) i)) = B2R (mono (chan a i)) /\
  is_finite (mono (chan (stereo_add a stereo_new) i)) = true /\ B2R (mono (chan (stereo_add a stereo_new) i)) = B2R (mono (chan a i)).
Proof. exact stereo_new_silent. Qed.

Example C09_ex : let a := mkStereo (of_Z 16777215) (of_Z 1) in let r : f64 := lit 16777217 (-24) in
  (forall i, is_finite (mono (chan a i)) = true) /\ is_finite r = true /\
  (bpow radix2 (-60) <= Rabs (B2R (mono (chan a false))) <= bpow radix2 60)%R /\
  B2SF (left (stereo_mul_m a r)) <> B2SF (left (stereo_mul_m_assign a r)).
Proof.
  cbv zeta. split; [intros []; reflexivity|]. split; [reflexivity|]. split.
  - cbn [chan mono left]. destruct (of_Z32 16777215 ltac:(lia)) as [_ ->].
    rewrite Rabs_pos_eq by lra. split.
    + apply Rle_trans with (bpow radix2 0); [apply bpow_le; lia|simpl; lra].
    + apply Rle_trans with (bpow radix2 24); [simpl; lra|apply bpow_le; lia].
  - vm_compute. discriminate.
Qed.

(** C10 *)
Theorem C10_mono_lossless : forall x : f32, mono_into_sample (mono_from_sample x) = x.
Proof. reflexivity. Qed.

Theorem C10_stereo_doubles : forall x : f32, is_finite x = true ->
  (bpow radix2 (-125) <= Rabs (B2R x) <= bpow radix2 126)%R ->
  is_finite (stereo_into_sample (stereo_from_sample x)) = true /\
  (Rabs (B2R (stereo_into_sample (stereo_from_sample x)) - 2 * B2R x)
     <= bpow radix2 (-21) * Rabs (B2R x))%R.
Proof. exact stereo_doubles. Qed.

Theorem C10_stereo_lossless_refuted : exists x : f32, is_finite x = true /\
  stereo_into_sample (stereo_from_sample x) = of_Z 2 /\ x = of_Z 1.
Proof.
  exists (of_Z 1). split; [reflexivity|]. split; [|reflexivity]. apply B2SF_inj. vm_compute. reflexivity.
Qed.

Example C10_ex : is_finite (of_Z 5 : f32) = true /\
  (bpow radix2 (-125) <= Rabs (B2R (of_Z 5 : f32)) <= bpow radix2 126)%R.
Proof.
  split; [reflexivity|]. destruct (of_Z32 5 ltac:(lia)) as [_ ->]. rewrite Rabs_pos_eq by lra. split.
  - apply Rle_trans with (bpow radix2 0); [apply bpow_le; lia|simpl; lra].
  - apply Rle_trans with (bpow radix2 3); [simpl; lra|apply bpow_le; lia].
Qed.

(** C11 *)
Theorem C11_try_from_errors : forall v : list Z,
  (mono_try_from_u8 v = None <-> (length v < 1)%nat) /\
  (mono_try_from_i16 v = None <-> (length v < 1)%nat) /\
  (mono_try_from_i32 v = None <-> (length v < 1)%nat) /\
  (stereo_try_from_u8 v = None <-> (length v < 2)%nat) /\
  (stereo_try_from_i16 v = None <-> (length v < 2)%nat) /\
  (stereo_try_from_i32 v = None <-> (length v < 2)%nat).
Proof. exact try_from_errors. Qed.

Theorem C11_try_from_prefix : forall v w : list Z,
  ((1 <= length v)%nat -> mono_try_from_u8 (v ++ w) = mono_try_from_u8 v /\
    mono_try_from_i16 (v ++ w) = mono_try_from_i16 v /\ mono_try_from_i32 (v ++ w) = mono_try_from_i32 v) /\
  ((2 <= length v)%nat -> stereo_try_from_u8 (v ++ w) = stereo_try_from_u8 v /\
    stereo_try_from_i16 (v ++ w) = stereo_try_from_i16 v /\ stereo_try_from_i32 (v ++ w) = stereo_try_from_i32 v).
Proof. exact try_from_prefix. Qed.

Theorem C11_into_length : forall (a : Mono) (b : Stereo),
  length (mono_into_u8 a) = mono_num_samples /\ length (mono_into_i16 a) = mono_num_samples /\
  length (mono_into_i32 a) = mono_num_samples /\ length (stereo_into_u8 b) = stereo_num_samples /\
  length (stereo_into_i16 b) = stereo_num_samples /\ length (stereo_into_i32 b) = stereo_num_samples.
Proof. exact into_length. Qed.

Theorem C11_mono_vec_round_trip : forall v : list Z, length v = 1%nat ->
  (Forall (fun z => 0 <= z <= 255)%Z v -> option_map mono_into_u8 (mono_try_from_u8 v) = Some v) /\
  (Forall (fun z => -32768 <= z <= 32767)%Z v -> option_map mono_into_i16 (mono_try_from_i16 v) = Some v) /\
  (Forall (fun z => - 2 ^ 23 <= z <= 2 ^ 23 - 1)%Z v -> option_map mono_into_i32 (mono_try_from_i32 v) = Some v).
Proof. exact mono_vec_round_trip. Qed.

Theorem C11_stereo_vec_round_trip : forall v : list Z, length v = 2%nat ->
  (Forall (fun z => 0 <= z <= 255)%Z v -> option_map stereo_into_u8 (stereo_try_from_u8 v) = Some v) /\
  (Forall (fun z => -32768 <= z <= 32767)%Z v -> option_map stereo_into_i16 (stereo_try_from_i16 v) = Some v) /\
  (Forall (fun z => - 2 ^ 23 <= z <= 2 ^ 23 - 1)%Z v -> option_map stereo_into_i32 (stereo_try_from_i32 v) = Some v).
Proof. exact stereo_vec_round_trip. Qed.

(** decoding builds the same value as the constructors applied to the decoded samples, in order *)
Theorem C11_try_from_is_constructor : forall a b : Z,
  mono_try_from_u8 [a] = Some (mono_from (sample_from_u8 a)) /\ mono_try_from_i16 [a] = Some (mono_from (sample_from_i16 a)) /\
  mono_try_from_i32 [a] = Some (mono_from (sample_from_i24 a)) /\ stereo_try_from_u8 [a; b] = Some (stereo_from (sample_from_u8 a) (sample_from_u8 b)) /\
  stereo_try_from_i16 [a; b] = Some (stereo_from (sample_from_i16 a) (sample_from_i16 b)) /\
  stereo_try_from_i32 [a; b] = Some (stereo_from (sample_from_i24 a) (sample_from_i24 b)).
Proof. repeat split. Qed.

Example C11_ex : option_map stereo_into_i16 (stereo_try_from_i16 [-32768; 12345; 7]%Z) = Some [-32768; 12345]%Z
  /\ stereo_try_from_u8 [9]%Z = None.
Proof. split; vm_compute; reflexivity. Qed.

(** C12 *)
Theorem C12_pan_types_agree : forall (m : libm) (s g : f32), pan32 m s g = pan64 m s (to64 g).
Proof. exact pan_types_agree. Qed.

Theorem C12_pan_clamp_hi : forall (m : libm) (s : f32) (g : f64), fge g (of_Z 1) = true ->
  pan64 m s g = pan64 m s (of_Z 1).
Proof. exact pan_clamp_hi. Qed.

Theorem C12_pan_clamp_lo : forall (m : libm) (s : f32) (g : f64), fle g (of_Z (-1)) = true ->
  pan64 m s g = pan64 m s (of_Z (-1)).
Proof. exact pan_clamp_lo. Qed.

(** panning to Mono keeps the sample, whatever the position *)
Theorem C12_mono_ignores_position : forall (T : Type) (s : f32) (g : T), mono_to_sample_format s g = mono_from_sample s /\ mono_into_sample (mono_to_sample_format s g) = s.
Proof. split; reflexivity. Qed.

Example C12_ex : fge (B754_infinity false : f64) (of_Z 1) = true /\ fge (of_Z 7 : f64) (of_Z 1) = true
  /\ fle (of_Z (-3) : f64) (of_Z (-1)) = true.
Proof. vm_compute. auto. Qed.

(** C13: the dB values at the three positions, and what they mean for any reasonably accurate pow *)
Theorem C13_pan_dbs :
  (pan_l_db true (of_Z (-1)) = of_Z (-3) /\ pan_r_db false (of_Z (-1)) = f0) /\
  (pan_l_db true f0 = of_Z (-120) /\ pan_r_db true f0 = of_Z (-3)) /\
  (pan_l_db false (of_Z 1) = of_Z (-3) /\ pan_r_db true (of_Z 1) = of_Z (-120)).
Proof. exact (conj pan_left_dbs (conj pan_mid_dbs pan_right_dbs)). Qed.

Theorem C13_pan_directions : forall (m : libm) (s : f32), pow10_accurate m -> is_finite s = true ->
  (bpow radix2 (-100) <= B2R s <= bpow radix2 100)%R ->
  let full_left := pan64 m s (of_Z (-1)) in
  let centre := pan64 m s f0 in
  let full_right := pan64 m s (of_Z 1) in
  (0.69 * B2R s <= B2R (left full_left) <= 0.73 * B2R s /\
   0.99 * B2R s <= B2R (right full_left) <= 1.01 * B2R s)%R /\
  (B2R (left centre) <= 0.000002 * B2R s /\
   0.69 * B2R s <= B2R (right centre) <= 0.73 * B2R s)%R /\
  (0.69 * B2R s <= B2R (left full_right) <= 0.73 * B2R s /\
   B2R (right full_right) <= 0.000002 * B2R s)%R.
Proof. exact pan_directions. Qed.

(** relied-on: at -1 the left channel is the louder one *)
Theorem C13_pan_left_refuted : exists (m : libm) (s : f32), pow10_accurate m /\ is_finite s = true /\
  (0 < B2R s)%R /\ (B2R (left (pan64 m s (of_Z (-1)))) < B2R (right (pan64 m s (of_Z (-1)))))%R.
Proof.
  exists ideal_libm, (of_Z 1). destruct (of_Z32 1 ltac:(lia)) as [F V].
  split; [exact ideal_pow10|]. split; [exact F|]. split; [rewrite V; lra|].
  destruct (pan_directions ideal_libm (of_Z 1) ideal_pow10 F) as [H _].
  - rewrite V. change 1%R with (bpow radix2 0). split; apply bpow_le; lia.
  - rewrite V in H. lra.
Qed.

Example C13_ex : pow10_accurate ideal_libm /\ is_finite (of_Z 1 : f32) = true /\ B2R (of_Z 1 : f32) = 1%R.
Proof. split; [exact ideal_pow10|apply (of_Z32 1); lia]. Qed.
