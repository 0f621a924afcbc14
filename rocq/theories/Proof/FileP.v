(** * Proofs: a track written to a file, read back and played *)
From Coq Require Import ZArith List Bool Reals Lra Lia Psatz.
From Flocq Require Import Core.Core IEEE754.BinarySingleNaN.
From Verif Require Import Model.Floats Model.SampleFormat Model.Mono Model.Wav Model.Resampler Model.Generators Spec.Libm Spec.Playback Spec.Response Spec.Chain Spec.Pitch Spec.Quantum
  Proof.FloatFacts Proof.SampleFormatP Proof.FormatsP Proof.WavP Proof.ResamplerP Proof.ResamplerP2 Proof.ResamplerP3 Proof.PlayP Proof.MonoWavP Proof.ChainP4 Proof.PitchP Proof.PitchP2 Proof.DetuneP.
Import ListNotations.
Local Open Scope R_scope.

Lemma rnd_unit x : Rabs x <= 1 -> Rabs (rnd32 x) <= 1 /\ Rabs (rnd32 x - x) <= bpow radix2 (-25).
Proof.
  intro H. split.
  - apply Rabs_le_inv in H. apply Rabs_le. split.
    + apply rnd_ge_fmt; [|lra]. replace (-1) with (- (1)) by ring. apply (fmt_opp (prec:=24) (emax:=128)). exact (fmt32_Z 1 ltac:(lia)).
    + apply rnd_le_fmt; [exact (fmt32_Z 1 ltac:(lia))|lra].
  - change (-25)%Z with (0 - 24 - 1)%Z. apply (rnd_err (prec:=24) (emax:=128) 0); [unfold SpecFloat.emin; lia|exact H].
Qed.

Lemma quantised bps s : bps = 8%Z \/ bps = 16%Z \/ bps = 24%Z -> fin s -> Rabs (B2R s) <= 1 ->
  let y := decz_of bps (enc_of bps s) in fin y /\ Rabs (B2R y) <= 1 /\ Rabs (B2R y - B2R s) <= quantum bps.
Proof.
  intros Hb Fs Hs. pose proof Hs as Hs'. apply Rabs_le_inv in Hs'.
  destruct Hb as [->|[->| ->]]; unfold decz_of, enc_of, quantum; cbn [Z.eqb Pos.eqb].
  - destruct (acc_u8' s Fs Hs) as (k & Ek & A). destruct (encoders_range s) as [Rg _].
    destruct (from_u8_ok _ Rg) as [F V]. split; [exact F|]. rewrite V.
    assert (R1 : 0 <= IZR (sample_to_u8 s) <= 255) by (split; apply IZR_le; lia).
    apply Rabs_le_inv in A. split; [apply Rabs_le; lra|].
    rewrite Ek in *. destruct (Z.min_spec 255 k) as [[C ->]|[C ->]].
    + assert (Hk : 256 <= IZR k) by (apply IZR_le; lia). apply Rabs_le. lra.
    + apply Rabs_le. lra.
  - pose proof (acc_i16' s Fs Hs) as A. destruct (encoders_range s) as [_ Rg]. destruct (from_i16_ok _ Rg) as (F & V & _).
    split; [exact F|]. rewrite V.
    assert (U : (-32767 <= sample_to_i16 s <= 32767)%Z).
    { apply Rabs_le_inv in A. split; [apply le_IZR|lia].
      apply Rnot_lt_le. intro X. assert (IZR (sample_to_i16 s) <= -32768) by (apply IZR_le; apply lt_IZR in X; lia). lra. }
    assert (U' : -32767 <= IZR (sample_to_i16 s) <= 32767) by (split; apply IZR_le; lia).
    destruct (rnd_unit (IZR (sample_to_i16 s) / 32767)) as [B C]; [apply Rabs_le; lra|]. split; [exact B|].
    change (bpow radix2 (-25)) with (/ 33554432) in C. apply Rabs_le_inv in A, C. apply Rabs_le. lra.
  - pose proof (acc_i24 s Fs Hs) as A.
    assert (U : (-8388607 <= sample_to_i24 s <= 8388607)%Z).
    { apply Rabs_le_inv in A. split; apply le_IZR; apply Rnot_lt_le; intro X.
      - assert (IZR (sample_to_i24 s) <= -8388608) by (apply IZR_le; apply lt_IZR in X; lia). lra.
      - assert (8388608 <= IZR (sample_to_i24 s)) by (apply IZR_le; apply lt_IZR in X; lia). lra. }
    destruct (from_i24_ok (sample_to_i24 s) ltac:(lia)) as (F & V & _). split; [exact F|]. rewrite V.
    assert (U' : -8388607 <= IZR (sample_to_i24 s) <= 8388607) by (split; apply IZR_le; lia).
    destruct (rnd_unit (IZR (sample_to_i24 s) / 8388607)) as [B C]; [apply Rabs_le; lra|]. split; [exact B|].
    change (bpow radix2 (-25)) with (/ 33554432) in C. apply Rabs_le_inv in A, C. apply Rabs_le. lra.
Qed.

Lemma clip_value s : fin s -> B2R (clip_sample s) = clip1 (B2R s).
Proof.
  intro F. destruct one32 as [F1 V1]. destruct mone32 as [F2 V2]. unfold clip_sample, clip1.
  rewrite (fgt_R _ _ F F1), (flt_R _ _ F F2), V1, V2.
  destruct (Rlt_bool_spec 1 (B2R s)); [rewrite V1, Rmin_left, Rmax_right; lra|].
  rewrite Rmin_right by lra. destruct (Rlt_bool_spec (B2R s) (-1)); [rewrite V2, Rmax_left; lra|rewrite Rmax_right; lra].
Qed.
Lemma clip1_id x : Rabs x <= 1 -> clip1 x = x.
Proof. intro H. apply Rabs_le_inv in H. unfold clip1. rewrite Rmin_right, Rmax_right; lra. Qed.

Lemma depth_of_write wr t ts bps clip h bd : write_wav wr (t :: ts) bps clip = Ok (Some (h, bd)) -> bps = 8%Z \/ bps = 16%Z \/ bps = 24%Z.
Proof.
  intro E. unfold write_wav in E. cbv zeta in E. destruct (check_clip _ _ _); [|discriminate].
  destruct (Z.eqb_spec bps 8); [auto|]. destruct (Z.eqb_spec bps 16); [auto|]. destruct (Z.eqb_spec bps 24); [auto|discriminate].
Qed.

Lemma file_close wr ts bps clip h bd : (Z.of_nat (length ts) <= 65535)%Z ->
  write_wav wr ts bps clip = Ok (Some (h, bd)) ->
  (forall t s, In t ts -> In s t -> is_finite s = true /\ (clip = true \/ Rabs (B2R s) <= 1)) ->
  exists us, read_wav (Some (h, bd)) = Ok (Some (h, us)) /\ Forall2 (close (quantum bps) (fun s => clip1 (B2R s))) ts us.
Proof.
  intros Hl E Hs. destruct (round_trip wr ts bps clip h bd Hl E) as (R & _).
  eexists. split; [exact R|].
  assert (Hb : ts <> [] -> bps = 8%Z \/ bps = 16%Z \/ bps = 24%Z).
  { intro N. destruct ts as [|t ts]; [contradiction|]. exact (depth_of_write _ _ _ _ _ _ _ E). }
  assert (G : forall vs, (forall t, In t vs -> In t ts) -> Forall2 (close (quantum bps) (fun s => clip1 (B2R s))) vs
    (map (fun t => map (fun s => decz_of bps (enc_of bps s)) (clipped clip t)) vs)).
  { induction vs as [|t vs IH]; intro Hin; [constructor|]. cbn [map]. constructor; [|apply IH; intros; apply Hin; right; assumption].
    assert (Tin : In t ts) by (apply Hin; left; reflexivity). assert (B := Hb ltac:(intro X; rewrite X in Tin; destruct Tin)).
    assert (Hst : forall s, In s t -> is_finite s = true /\ (clip = true \/ Rabs (B2R s) <= 1)) by (intros s Is; exact (Hs t s Tin Is)).
    clear - B Hst. unfold close. induction t as [|s t IHt]; [destruct clip; constructor|].
    assert (Rec : Forall2 (fun x y : f32 => is_finite y = true /\ Rabs (B2R y) <= 1 /\ Rabs (B2R y - clip1 (B2R x)) <= quantum bps) t
      (map (fun s => decz_of bps (enc_of bps s)) (clipped clip t))) by (apply IHt; intros; apply Hst; right; assumption).
    destruct (Hst s (or_introl eq_refl)) as [F C].
    destruct clip; cbn [clipped map] in *; constructor; try exact Rec.
    - assert (N : is_nan s = false) by (destruct s; try discriminate; reflexivity). destruct (clip_range s N) as (A & A2 & _).
      rewrite <- (clip_value s F). exact (quantised bps _ B A A2).
    - destruct C as [C|C]; [discriminate|]. rewrite (clip1_id _ C). exact (quantised bps _ B F C). }
  apply G. auto.
Qed.

(** ** a track that records a curve, through a file, played at a speed *)
Lemma file_recording wr t bps clip h bd eps g (speed : f64) : write_wav wr [t] bps clip = Ok (Some (h, bd)) ->
  Forall (fun s => is_finite s = true /\ Rabs (B2R s) <= 1) t -> recording eps g (map mkMono t) ->
  exists data r, monowav_from_source (Some (h, bd)) = Ok r /\ set_playback_speed r speed = player data (of_Z 48000) speed /\
    length data = length t /\ within 0 data /\ recording (eps + quantum bps) g data.
Proof.
  intros E Ht Rc. rewrite Forall_forall in Ht. assert (Hb := depth_of_write _ _ _ _ _ _ _ E).
  destruct (file_close wr [t] bps clip h bd ltac:(simpl; lia) E) as (us & R & C).
  { intros t' s It Is. destruct It as [<-|[]]. destruct (Ht s Is). auto. }
  inversion C as [|? u ? l2 Hu Hnil]; subst. inversion Hnil; subst.
  destruct (round_trip wr [t] bps clip h bd ltac:(simpl; lia) E) as (_ & _ & Sr & _).
  exists (map mkMono u). eexists. split; [|split; [|split; [|split]]].
  - unfold monowav_from_source. rewrite R. cbn [bind unwrap hd_error]. rewrite Sr. reflexivity.
  - reflexivity.
  - rewrite map_length. clear - Hu. unfold close in Hu. induction Hu; [reflexivity|cbn [length]; congruence].
  - apply Forall_forall. intros d Hd. apply in_map_iff in Hd. destruct Hd as (y & <- & Iy). cbn [mono].
    destruct (In_nth_error _ _ Iy) as (j & Hj). clear - Hu Hj. revert u Hu Hj. generalize t. clear t. intros t u Hu. revert j. unfold close in Hu.
    induction Hu as [|x z t u Hxy Hr IH]; intros j Hj; [destruct j; discriminate|]. destruct j as [|j]; cbn [nth_error] in Hj; [|exact (IH j Hj)].
    assert (z = y) as <- by congruence. split; apply Hxy.
  - intros j d Hj. rewrite nth_error_map in Hj. destruct (nth_error u j) as [y|] eqn:Ey; [|discriminate]. cbn [option_map] in Hj.
    assert (d = mkMono y) as -> by congruence. cbn [mono].
    assert (X : exists x, nth_error t j = Some x /\ Rabs (B2R y - clip1 (B2R x)) <= quantum bps).
    { clear - Hu Ey. unfold close in Hu. revert j Ey. induction Hu as [|x z t u Hxy Hr IH]; intros j Hj; [destruct j; discriminate|].
      destruct j as [|j]; cbn [nth_error] in *; [|exact (IH j Hj)]. assert (z = y) as -> by congruence. exists x. split; [reflexivity|apply Hxy]. }
    destruct X as (x & Hx & Q). destruct (Ht x (nth_error_In _ _ Hx)) as [_ Bx]. rewrite (clip1_id _ Bx) in Q.
    specialize (Rc j (mkMono x)). rewrite nth_error_map, Hx in Rc. specialize (Rc eq_refl). cbn [mono] in Rc.
    apply Rabs_le_inv in Rc, Q. apply Rabs_le. lra.
Qed.

Lemma sine_file m (f : f64) N k bps clip (speed : f64) n : sin_bounded m -> sin_zero m -> sin_accurate m -> fin f -> 0 <= B2R f <= 48000 ->
  (0 <= k <= 24)%Z -> (Z.of_nat N <= 2 ^ k)%Z -> (forall q, (0 <= q <= 22)%Z -> Z.of_nat N <> (2 ^ q + 1)%Z) ->
  bps = 8%Z \/ bps = 16%Z \/ bps = 24%Z -> fin speed -> / 1048576 <= B2R speed <= 1048576 ->
  exists ts s h bd r ys r', sin_run m (repeat GNext N) (sin_new f) = Ok (ts, s) /\
    write_wav (fun _ _ => true) [ts] bps clip = Ok (Some (h, bd)) /\ monowav_from_source (Some (h, bd)) = Ok r /\
    rcalls n (set_playback_speed r speed) = Ok (ys, r') /\
  let c := B2R speed in let drift := c * bpow radix2 (-22) + bpow radix2 (k - 25) in let om := rad (B2R f) in
  forall i, (i < n)%nat -> INR i * (c + drift) < INR N - 1 ->
    exists p, Rabs (p - INR i * c) <= INR i * drift /\
    let D := bpow radix2 (-8) + quantum bps + om * om / 8 + om * (INR i * drift) in
    (~ below_power p -> Rabs (B2R (nth i ys f0) - sin (2 * PI * (B2R f * B2R speed) * INR i / 48000)) <= D) /\
    Rabs (B2R (nth i ys f0) - sin (2 * PI * (B2R f * B2R speed) * INR i / 48000)) <= D + om.
Proof.
  intros Sb Sz Sa Ff Hf Hk HN NQ Hb Fs Hs. destruct (sine_near m f N Sb Sz Sa Ff Hf) as (ts & s & E & L & T).
  destruct (write_ok (fun _ _ => true) [ts] bps clip ltac:(discriminate)) as (v & Ew & _).
  { intros t u [<-|[]] [<-|[]]. reflexivity. } { exact Hb. }
  eassert (Ew' : write_wav (fun _ _ => true) [ts] bps clip = Ok (Some (_, _))) by exact Ew. clear Ew.
  match type of Ew' with _ = Ok (Some (?a, ?b)) => set (h := a) in Ew'; set (bd := b) in Ew' end.
  set (eps := bpow radix2 (-9) + INR (Nat.pred N) * bpow radix2 (-48)) in *.
  pose proof (near_tone_recording _ _ _ _ _ T) as Rc0.
  assert (Ft : Forall (fun s => is_finite s = true /\ Rabs (B2R s) <= 1) ts).
  { apply Forall_forall. intros x Hx. apply In_nth_error in Hx. destruct Hx as (j & Hj). destruct (T j x Hj) as (A & B & _). auto. }
  destruct (file_recording _ ts bps clip h bd _ _ speed Ew' Ft Rc0) as (data & r & Er & Ep & Ld & W & Rc).
  destruct (of_Z64 48000 ltac:(lia)) as [Fr Vr]. rewrite L in Ld.
  assert (K24 : (2 ^ k <= 2 ^ 24)%Z) by (apply Z.pow_le_mono_r; lia).
  destruct (player_playing data (of_Z 48000) speed Fr ltac:(rewrite Vr; lra) Fs Hs ltac:(rewrite Ld; lia)) as (Pl & _).
  destruct (rcalls_ok data ltac:(rewrite Ld; lia) ltac:(rewrite Ld; exact NQ) n _ Pl eq_refl) as (ys & r' & Ec).
  exists ts, s, h, bd, r, ys, r'. split; [exact E|]. split; [exact Ew'|]. split; [exact Er|]. split; [rewrite Ep; exact Ec|].
  intros c drift om i Hi Q.
  assert (Ep2 : bpow radix2 (0 - 22) + eps <= bpow radix2 (-8)).
  { assert (INR (Nat.pred N) <= bpow radix2 24).
    { apply Rle_trans with (INR N); [apply le_INR; lia|]. rewrite INR_IZR_INZ, <- IZR_pow2 by lia. apply IZR_le. lia. }
    unfold eps. change (bpow radix2 24) with 16777216 in *. simpl. lra. }
  assert (Eo : om = 2 * PI * B2R f / B2R (of_Z 48000 : f64)) by (rewrite Vr; reflexivity).
  assert (O0 : 0 <= om) by (unfold om, rad; pose proof PI_RGT_0; nra).
  assert (Cc : B2R (of_Z 48000 : f64) * B2R speed / 48000 = c) by (rewrite Vr; unfold c; field).
  pose proof (tone_playback 0 k data (of_Z 48000) speed n ys r' (B2R f) (0, -1) (eps + quantum bps) ltac:(lia) W Hk ltac:(rewrite Ld; exact HN) Fr ltac:(rewrite Vr; lra) Fs Hs ltac:(lra)) as H.
  cbn zeta in H. rewrite <- Eo, Cc, Ld in H. fold drift in H. specialize (H Rc Ec i Hi). rewrite <- INR_IZR_INZ in H. destruct (H Q) as (p & P & _ & A & B).
  exists p. split; [exact P|]. rewrite modulus_sine, tone_sine in A, B.
  replace (rad (B2R f * B2R speed) * INR i) with (2 * PI * (B2R f * B2R speed) * INR i / 48000) in A, B by (unfold rad; field).
  split; [intro NB; specialize (A NB)|]; lra.
Qed.
