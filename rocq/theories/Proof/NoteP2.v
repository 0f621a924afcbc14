(** * A note: a generator and an ADSR in a SimpleSound *)
From Coq Require Import ZArith List Bool Lia Reals Lra Psatz.
From Flocq Require Import Core.Core IEEE754.BinarySingleNaN.
From Verif Require Import Model.Floats Model.Utils Model.Generators Model.Modifiers Model.Filters Model.Sounds Model.Parts Spec.Libm Spec.Decibel Spec.Response Spec.Track Spec.Parts Spec.SoundSpec Spec.Chain Spec.Note
  Proof.FloatFacts Proof.SampleFormatP Proof.FormatsP Proof.UtilsP Proof.WavP Proof.GenericP Proof.GeneratorsP3 Proof.GeneratorsP4 Proof.NearP Proof.LibmP Proof.DbP
  Proof.AdsrP Proof.AdsrP2 Proof.AdsrP3 Proof.AdsrShapeP Proof.SoundsP Proof.SoundsP2 Proof.SoundsP3 Proof.PartsP Proof.PartsP2 Proof.ChainP4 Proof.NoteP.
Import ListNotations.
Local Open Scope R_scope.

Definition sounding (e : adsr) : Prop := ad_state e = Attack \/ ad_state e = Decay \/ ad_state e = Sustain.
Lemma sounding_step e x : sounding e -> sounding (snd (adsr_process e x)) /\ fst (adsr_process e x) = fmul x (ad_g (snd (adsr_process e x))).
Proof.
  unfold sounding, adsr_process. intros [S1|[S1|S1]]; rewrite S1; cbv zeta; cbn [snd fst].
  - destruct fge; cbn [adsr_set ad_state]; auto.
  - destruct fle; cbn [adsr_set ad_state]; auto.
  - auto.
Qed.
Lemma sounding_after e xs : sounding e -> sounding (after_n e xs).
Proof. intro H. induction xs as [|x xs IH] using rev_ind; [exact H|]. rewrite after_n_app. apply sounding_step, IH. Qed.
Lemma shaped_nth xs : forall e i x, sounding e -> nth_error xs i = Some x -> nth_error (fst (run adsr_process e xs)) i = Some (fmul x (ad_g (after_n e (firstn (S i) xs)))).
Proof.
  induction xs as [|u xs IH]; intros e i x He H; [destruct i; discriminate|].
  destruct (sounding_step e u He) as [S1 F1]. cbn [run firstn]. rewrite after_n_S. destruct (adsr_process e u) as [y e1] eqn:E. cbn [fst snd] in *. specialize (IH e1).
  destruct (run adsr_process e1 xs) as [ys e2] eqn:R. cbn [fst]. destruct i as [|i].
  - cbn [nth_error] in *. assert (u = x) as <- by congruence. rewrite F1. destruct xs; reflexivity.
  - cbn [nth_error] in *. specialize (IH i x S1 H). cbn [fst] in IH. exact IH.
Qed.
Section Shaped.
Variables (m : libm) (a d : duration) (s : f64) (r : duration).
Hypothesis HU : pow10_unit m. Hypothesis HA : pow10_accurate m.
Hypothesis Fs : fin s. Hypothesis Hs : Rabs (B2R s) <= 2000.
Hypothesis Pa : pos_dur a. Hypothesis Pd : pos_dur d. Hypothesis Pr : pos_dur r.
Let A := 48000 * dur_R a. Let D := 48000 * dur_R d. Let L := dB (Rmin (B2R s) 0).
Let e0 := adsr_new m a d s r.
Lemma shaped (q : Z) xs i x : A <= bpow radix2 22 -> (-100 <= q <= 100)%Z -> nth_error xs i = Some x -> fin x -> Rabs (B2R x) <= bpow radix2 q ->
  exists y, nth_error (fst (run adsr_process e0 xs)) i = Some y /\ fin y /\ Rabs (B2R y) <= bpow radix2 q /\
    Rabs (B2R y - B2R x * adsr_curve A D L (INR (S i))) <= bpow radix2 q * adsr_err A D L + bpow radix2 (q - 25).
Proof.
  intros HA22 Hq Hx Fx Bx. assert (NI : s <> B754_infinity true) by (intro C; subst; discriminate Fs).
  exists (fmul x (ad_g (after_n e0 (firstn (S i) xs)))). split; [apply shaped_nth; [left; reflexivity|exact Hx]|].
  pose proof (held_envelope m a d s r HU HA Fs Hs Pa Pd Pr (firstn (S i) xs) HA22) as HE. fold e0 A D L in HE.
  assert (Li : (i < length xs)%nat) by (apply nth_error_Some; congruence). rewrite firstn_length_le in HE by lia.
  destruct Pa as [Da Pa'], Pd as [Dd Pd'], Pr as [Dr Pr']. destruct (adsr_new_ok m a d r s HU NI Da Dd Dr Pa' Pd' Pr') as [K I].
  destruct (after_n_inv e0 (firstn (S i) xs) K I) as (_ & (Fg & Hg & _) & _). set (g := ad_g (after_n e0 (firstn (S i) xs))) in *.
  assert (PB : Rabs (B2R x * B2R g) <= bpow radix2 q).
  { rewrite Rabs_mult, (Rabs_pos_eq (B2R g)) by apply Hg. apply Rle_trans with (Rabs (B2R x) * 1); [|lra]. apply Rmult_le_compat_l; [apply Rabs_pos|apply Hg]. }
  assert (FM : fmt32 (bpow radix2 q)) by (apply generic_format_bpow; unfold SpecFloat.fexp, SpecFloat.emin; lia).
  assert (RB : Rabs (rnd32 (B2R x * B2R g)) <= bpow radix2 q) by (apply abs_round_le_generic; try typeclasses eauto; assumption).
  destruct (fmul_ok x g Fx Fg) as [Fy Vy]; [eapply Rle_lt_trans; [exact RB|apply bpow_lt; lia]|].
  split; [exact Fy|]. rewrite Vy. split; [exact RB|].
  assert (ER : Rabs (rnd32 (B2R x * B2R g) - B2R x * B2R g) <= bpow radix2 (q - 25)).
  { replace (q - 25)%Z with (q - 24 - 1)%Z by ring. apply (rnd_err (prec:=24) (emax:=128) q); [unfold SpecFloat.emin; lia|exact PB]. }
  assert (EG : Rabs (B2R x * B2R g - B2R x * adsr_curve A D L (INR (S i))) <= bpow radix2 q * adsr_err A D L).
  { rewrite <- Rmult_minus_distr_l, Rabs_mult. apply Rmult_le_compat; try apply Rabs_pos; assumption. }
  apply Rabs_le_inv in ER, EG. apply Rabs_le. lra.
Qed.

(** Sine::new(f) and ADSR::new(...) in a SimpleSound, whatever is fed in *)
Lemma sine_note f gi go g calls h xs : A <= bpow radix2 22 ->
  sin_bounded m -> sin_zero m -> sin_accurate m -> fin f -> 0 <= B2R f <= 48000 ->
  NoDup (g :: added calls) -> map (get_mut kit h) (g :: added calls) = map Some [tone_block f; User kit (kit_modifier (MAdsr e0))] ->
  exists ys, outputs (run_res (ss_process kit kit_prime (kit_process m) (fold_left madd_step calls (ss_new gi go g))) h xs) = Ok (map (fun y => fmul y (to32 go)) ys) /\ length ys = length xs /\
    forall i y, nth_error ys i = Some y -> fin y /\ Rabs (B2R y) <= 1 /\
      Rabs (B2R y - adsr_curve A D L (INR (S i)) * sin (2 * PI * B2R f * INR i / 48000)) <= adsr_err A D L + bpow radix2 (-8) + INR i * bpow radix2 (-48).
Proof.
  intros HA22 Sb Sz Sa F H ND HH.
  rewrite (sound_pipeline kit kit_prime (kit_process m) gi go g calls h _ _ xs ND HH).
  rewrite pipeline_cons. unfold tone_block. rewrite user_cycle, tone_plays, !map_length. set (n := length xs).
  destruct (sin_accuracy m f n Sb Sz Sa F H) as (ts & s' & E & Lt & At).
  destruct (sin_hist m (repeat GNext n) Sb) with (s := sin_new f) as (ys2 & s2 & E2 & _ & B).
  { apply Forall_forall. intros o Ho. apply repeat_spec in Ho. subst o. exact I. } { apply sin_new_inv; assumption. }
  rewrite E in E2. assert (ys2 = ts) as -> by congruence. rewrite E. cbn [outputs bind].
  rewrite pipeline_cons, user_cycle, kit_modifier_filters. destruct (adsr_alone m (map (fun x => [x]) ts) e0) as (zs & EZ & VZ). rewrite EZ. cbn [outputs bind pipeline].
  assert (MS : map sum_in (map (fun x => [x]) ts) = map (fadd f0) ts) by (rewrite map_map; reflexivity). rewrite MS in VZ.
  exists zs. split; [reflexivity|].
  assert (Lz : length zs = n).
  { rewrite VZ, run_length, map_length. exact Lt. }
  split; [exact Lz|]. intros i y Hi. assert (Li : (i < n)%nat) by (rewrite <- Lz; apply nth_error_Some; congruence).
  destruct (At i Li) as (t & Nt & Ft & Dt). rewrite Forall_forall in B. destruct (B t (nth_error_In _ _ Nt)) as [_ Bt].
  assert (Nt' : nth_error (map (fadd f0) ts) i = Some (fadd f0 t)) by (apply map_nth_error; exact Nt).
  assert (T0 : fin (fadd f0 t) /\ B2R (fadd f0 t) = B2R t).
  { destruct (fadd_le f0 t 1 eq_refl Ft) as (A1 & A2 & _); [apply (fmt32_Z 1); lia|pose proof bpow_128_big; lra|change (B2R (f0 : f32)) with 0; rewrite Rplus_0_l; apply Rabs_le; lra|].
    split; [exact A1|]. rewrite A2. change (B2R (f0 : f32)) with 0. rewrite Rplus_0_l. apply (rnd_fmt (prec:=24) (emax:=128)). apply fmt_B2R. }
  destruct T0 as [T1 T2].
  destruct (shaped 0 (map (fadd f0) ts) i (fadd f0 t) HA22 ltac:(lia) Nt' T1) as (y' & Ny & Fy & By & Dy).
  { rewrite T2. change (bpow radix2 0) with 1. apply Rabs_le; lra. }
  rewrite <- VZ, Hi in Ny. assert (y' = y) as -> by congruence. split; [exact Fy|]. split; [exact By|].
  rewrite T2 in Dy. change (bpow radix2 0) with 1 in Dy. rewrite Rmult_1_l in Dy. set (v := adsr_curve A D L (INR (S i))) in *.
  assert (V1 : 0 <= v <= 1).
  { pose proof (dur_pos a Pa) as DPa. pose proof (dur_pos d Pd) as DPd. destruct (new_steps m a d s r HU HA Fs Hs Pd Pr) as (_ & _ & _ & _ & _ & _ & _ & _ & F9). fold L in F9.
    assert (A0 : 0 < A) by (unfold A; lra). assert (D0 : 0 < D) by (unfold D; lra).
    destruct (Rle_lt_dec (INR (S i)) A) as [C|C].
    - unfold v. rewrite curve_attack by lra. split; [apply Rmult_le_pos; [apply pos_INR|left; apply Rinv_0_lt_compat; exact A0]|].
      apply Rmult_le_reg_r with A; [exact A0|]. replace (INR (S i) / A * A) with (INR (S i)) by (field; lra). lra.
    - pose proof (curve_range A D L (INR (S i)) A0 D0 ltac:(lra) ltac:(lra)) as R2. fold v in R2. lra. }
  assert (SV : Rabs (B2R t * v - v * sin (2 * PI * B2R f * INR i / 48000)) <= bpow radix2 (-9) + INR i * bpow radix2 (-48)).
  { replace (B2R t * v - v * sin (2 * PI * B2R f * INR i / 48000)) with (v * (B2R t - sin (2 * PI * B2R f * INR i / 48000))) by ring. rewrite Rabs_mult, (Rabs_pos_eq v) by lra.
    eapply Rle_trans; [|exact Dt]. rewrite <- (Rmult_1_l (Rabs (B2R t - _))) at 2. apply Rmult_le_compat_r; [apply Rabs_pos|lra]. }
  assert (P9 : bpow radix2 (-9) + bpow radix2 (0 - 25) <= bpow radix2 (-8)) by (change (bpow radix2 (-9)) with (/ 512); change (bpow radix2 (0 - 25)) with (/ 33554432); change (bpow radix2 (-8)) with (/ 256); lra).
  apply Rabs_le_inv in Dy, SV. apply Rabs_le. lra.
Qed.
End Shaped.
