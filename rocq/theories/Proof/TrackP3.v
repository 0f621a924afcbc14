(** * The filters of the program and the exact ones: runs, tones, corners *)
From Coq Require Import ZArith List Bool Reals Lra Lia Psatz.
From Flocq Require Import Core.Core IEEE754.BinarySingleNaN.
From Verif Require Import Model.Floats Model.Modifiers Model.Filters Spec.Libm Spec.Response Spec.Track Proof.FloatFacts Proof.SampleFormatP Proof.FormatsP
  Proof.GenericP Proof.GeneratorsP Proof.GeneratorsP4 Proof.FiltersP Proof.FiltersP2 Proof.NearP Proof.FilterF32P Proof.FilterF32P2 Proof.BandPassP
  Proof.BandPassF32P Proof.ResponseP Proof.ResponseP2 Proof.ResponseP3 Proof.CornersP Proof.TrackP Proof.TrackP2.
Import ListNotations.
Local Open Scope R_scope.

(** ** LowPass and HighPass *)
Lemma t_of_600 f : 600 <= f <= 24000 -> 785 / 10000 <= t_of f <= 16 / 5.
Proof.
  intro H. pose proof PI_bounds as PB. unfold t_of. split.
  - apply Rle_trans with (2 * (31415926 / 10000000) * 600 * / 48000); [lra|]. apply Rmult_le_compat_r; [lra|]. apply Rmult_le_compat; lra.
  - apply Rle_trans with (2 * (31415927 / 10000000) * 24000 * / 48000); [|lra]. apply Rmult_le_compat_r; [lra|]. apply Rmult_le_compat; lra.
Qed.
Lemma lp_coeffs_acc m fc r : cos_accurate m -> pow_int_accurate m -> fin fc -> 600 <= B2R fc <= 24000 -> fin r -> 0 <= B2R r <= 1 ->
  let t := B2R (bw_t (A64 m) fc) in let d := d_of (B2R r) in exists c0F b1F b2F b3F, lp_coeffs (A64 m) to32 fc r = mkC c0F b1F b2F b3F /\
  acc c0F (t ^ 3 / gof t d) /\ acc b1F (n1of t d / gof t d) /\ acc b2F ((- (d + 1) * t - 3) / gof t d) /\ acc b3F (1 / gof t d).
Proof.
  intros HC HP Ff Bf Fr Br t d. assert (OK : fc_ok fc) by (split; [exact Ff|lra]). destruct (t_600 m fc OK (proj1 Bf)) as [TR _].
  pose proof (k_near m HC r Br _ (lp_theta_ok m r Fr Br)) as KN. pose proof (d_of_range (B2R r) Br) as DR.
  pose proof (c0_near m HP fc OK _ _ KN DR) as A0. pose proof (b1_near m HP fc OK _ _ KN DR) as A1.
  pose proof (b2_near m HP fc OK _ _ KN DR) as A2. pose proof (over_g m HP fc OK _ _ KN DR 1 ltac:(lia)) as A3.
  unfold lp_coeffs. cbv zeta. do 4 eexists. split; [reflexivity|].
  assert (G : 1 <= gof t d) by (apply (g_rng' t d TR DR)).
  split; [exact (acc_pos _ _ A0)|]. split; [exact (acc_pos _ _ A1)|]. split; [|exact (acc_pos _ _ A3)].
  apply (acc_neg _ _ _ A2). unfold n2. fold t d (gof t d). field. lra.
Qed.
Lemma hp_coeffs_acc m fc r : cos_accurate m -> pow_int_accurate m -> fin fc -> 600 <= B2R fc <= 24000 -> fin r -> 0 <= B2R r <= 1 ->
  let t := B2R (bw_t (A64 m) fc) in let d := d_of (B2R r) in exists a0F a1F a2F a3F b1F b2F b3F, hp_coeffs (A64 m) to32 fc r = mkHPC (mkC a0F a1F a2F a3F) b1F b2F b3F /\
  (acc b1F (n1of t d / gof t d) /\ acc b2F ((- (d + 1) * t - 3) / gof t d) /\ acc b3F (1 / gof t d)) /\
  acc a0F (1 / gof t d) /\ acc a1F (-3 / gof t d) /\ acc a2F (3 / gof t d) /\ acc a3F (-1 / gof t d).
Proof.
  intros HC HP Ff Bf Fr Br t d. assert (OK : fc_ok fc) by (split; [exact Ff|lra]). destruct (t_600 m fc OK (proj1 Bf)) as [TR _].
  pose proof (k_near m HC r Br _ (hp_theta_ok m r Fr Br)) as KN. pose proof (d_of_range (B2R r) Br) as DR.
  pose proof (b1_near m HP fc OK _ _ KN DR) as A1.
  pose proof (b2_near m HP fc OK _ _ KN DR) as A2. pose proof (over_g m HP fc OK _ _ KN DR 1 ltac:(lia)) as A3.
  pose proof (over_gn m HP fc OK _ _ KN DR 3 ltac:(lia)) as C1. pose proof (over_g m HP fc OK _ _ KN DR 3 ltac:(lia)) as C2.
  pose proof (over_gn m HP fc OK _ _ KN DR 1 ltac:(lia)) as C3.
  unfold hp_coeffs. cbv zeta. do 7 eexists. split; [reflexivity|].
  assert (G : 1 <= gof t d) by (apply (g_rng' t d TR DR)).
  split; [split; [exact (acc_pos _ _ A1)|split; [|exact (acc_pos _ _ A3)]]|].
  - apply (acc_neg _ _ _ A2). unfold n2. fold t d (gof t d). field. lra.
  - split; [exact (acc_pos _ _ A3)|]. split; [|split; [exact (acc_pos _ _ C2)|]].
    + apply (acc_neg _ _ _ C1). fold t d (gof t d). field. lra.
    + apply (acc_neg _ _ _ C3). fold t d (gof t d). field. lra.
Qed.
Theorem lp_tracks m fc r X xs : cos_accurate m -> pow_int_accurate m -> let s := lp_new m fc r in fle (of_Z 600) (lp_fc s) = true ->
  bpow radix2 (-100) <= X <= bpow radix2 90 -> (forall x, In x xs -> fin x /\ Rabs (B2R x) <= X) ->
  Forall2 (fun y z => fin y /\ Rabs (B2R y - z) <= lp_drift (B2R (lp_fc s)) * X)
    (fst (run lp_process s xs)) (fst (run (lpR (B2R (lp_fc s)) (B2R (lp_r s))) (hist0 0) (map B2R xs))).
Proof.
  intros HC HP s H6 HX Hxs. destruct (params_ok fc r H6) as ((Ff & Bf) & (Fr & Br)). rewrite lp_run_coeff. subst s.
  change (lp_fc (lp_new m fc r)) with (clamp_fc fc) in *. change (lp_r (lp_new m fc r)) with (clamp_r r) in *.
  change (lp_outs (lp_new m fc r)) with (hist0 (f0 : f32)). change (lp_coeff (lp_new m fc r)) with (lp_coeffs (A64 m) to32 (clamp_fc fc) (clamp_r r)).
  generalize dependent (clamp_fc fc). generalize dependent (clamp_r r). clear fc r. intros r Fr Br fc H6 Ff Bf.
  destruct (lp_coeffs_acc m fc r HC HP Ff Bf Fr Br) as (c0F & b1F & b2F & b3F & EC & A0 & A1 & A2 & A3). rewrite EC.
  assert (OK : fc_ok fc) by (split; [exact Ff|lra]). destruct (t_600 m fc OK (proj1 Bf)) as [TR _]. destruct (t_near m fc OK) as (_ & TN & _). cbn [sgn] in TN.
  pose proof (t_of_600 _ Bf) as TU. pose proof (d_of_range (B2R r) Br) as DR.
  pose proof (lp_track_run _ _ _ TR TU DR TN X HX c0F b1F b2F b3F A0 A1 A2 A3 xs (hist0 f0) (hist0 0) (lpJ0 _ _ TR X HX) (lp_close0 _ _ TU DR X HX) Hxs) as T.
  unfold lpR. rewrite lp_coeffs_R. cbv zeta. eapply Forall2_weaken; [|exact T]. intros y z [F B]. split; [exact F|]. apply Rle_trans with (1 := B).
  right. unfold lp_drift, lpE. change (rad (B2R fc)) with (t_of (B2R fc)). cbv zeta. ring.
Qed.
Theorem hp_tracks m fc r X xs : cos_accurate m -> pow_int_accurate m -> let s := hp_new m fc r in fle (of_Z 600) (hp_fc s) = true ->
  bpow radix2 (-100) <= X <= bpow radix2 90 -> (forall x, In x xs -> fin x /\ Rabs (B2R x) <= X) ->
  Forall2 (fun y z => fin y /\ Rabs (B2R y - z) <= hp_drift (B2R (hp_fc s)) * X)
    (fst (run hp_process s xs)) (fst (run (hpR (B2R (hp_fc s)) (B2R (hp_r s))) (hist0 0, hist0 0) (map B2R xs))).
Proof.
  intros HC HP s H6 HX Hxs. destruct (params_ok fc r H6) as ((Ff & Bf) & (Fr & Br)). rewrite hp_run_coeff. subst s.
  change (hp_fc (hp_new m fc r)) with (clamp_fc fc) in *. change (hp_r (hp_new m fc r)) with (clamp_r r) in *.
  change (hp_hist (hp_new m fc r)) with (hist0 (f0 : f32), hist0 (f0 : f32)). change (hp_coeff (hp_new m fc r)) with (hp_coeffs (A64 m) to32 (clamp_fc fc) (clamp_r r)).
  generalize dependent (clamp_fc fc). generalize dependent (clamp_r r). clear fc r. intros r Fr Br fc H6 Ff Bf.
  destruct (hp_coeffs_acc m fc r HC HP Ff Bf Fr Br) as (a0F & a1F & a2F & a3F & b1F & b2F & b3F & EC & (A1 & A2 & A3) & C0 & C1 & C2 & C3). rewrite EC.
  assert (OK : fc_ok fc) by (split; [exact Ff|lra]). destruct (t_600 m fc OK (proj1 Bf)) as [TR _]. destruct (t_near m fc OK) as (_ & TN & _). cbn [sgn] in TN.
  pose proof (t_of_600 _ Bf) as TU. pose proof (d_of_range (B2R r) Br) as DR.
  pose proof (hp_track_run _ _ _ TR TU DR TN X HX b1F b2F b3F A1 A2 A3 a0F a1F a2F a3F C0 C1 C2 C3 xs (hist0 f0, hist0 f0) (hist0 0, hist0 0) (hpJ0 _ _ TR X HX) (hp_close0 _ _ TU DR X HX) Hxs) as T.
  unfold hpR. rewrite hp_coeffs_R. cbv zeta. eapply Forall2_weaken; [|exact T]. intros y z [F B]. split; [exact F|]. apply Rle_trans with (1 := B).
  right. unfold hp_drift, hpE. change (rad (B2R fc)) with (t_of (B2R fc)). cbv zeta. ring.
Qed.

(** ** tones *)
Section Lin.
Context {St : Type} (step : St -> R -> R * St) (sub : St -> St -> St).
Hypothesis L : forall s s' x x', step (sub s s') (x - x') = (fst (step s x) - fst (step s' x'), sub (snd (step s x)) (snd (step s' x'))).
Lemma after_sub s s' x x' n : after step (sub s s') (fun i => x i - x' i) n = sub (after step s x n) (after step s' x' n).
Proof. induction n as [|n IH]; [reflexivity|]. cbn [after]. rewrite IH, L. reflexivity. Qed.
Lemma out_sub s s' x x' n : out step (sub s s') (fun i => x i - x' i) n = out step s x n - out step s' x' n.
Proof. unfold out. rewrite after_sub, L. reflexivity. Qed.
Lemma out_in s x n : In (out step s x n) (fst (run step s (map x (seq 0 (S n))))).
Proof. rewrite run_stream. cbn [fst]. apply in_map. apply in_seq. lia. Qed.
End Lin.
Lemma Forall2_nth {A B} (P : A -> B -> Prop) l1 l2 a b : Forall2 P l1 l2 -> forall n, (n < length l1)%nat -> P (nth n l1 a) (nth n l2 b).
Proof. induction 1; intros [|n] H'; cbn [length nth] in *; try lia; auto. apply IHForall2. lia. Qed.
Lemma run_len {St A B} (step : St -> A -> B * St) xs : forall s, length (fst (run step s xs)) = length xs.
Proof. induction xs as [|x xs IH]; intro s; [reflexivity|]. cbn [run]. destruct (step s x) as [y s']. specialize (IH s'). destruct (run step s' xs). cbn [fst length] in *. lia. Qed.
(** tracking of every finite run, linearity and a gain bound of the exact filter, and its settling on the tone *)
Lemma tone_through {SF St} (fstep : SF -> f32 -> f32 * SF) (sf : SF) (step : St -> R -> R * St) (sub : St -> St -> St) (s : St) om w H x eps X D G :
  (forall s s' x x', step (sub s s') (x - x') = (fst (step s x) - fst (step s' x'), sub (snd (step s x)) (snd (step s' x')))) -> sub s s = s ->
  (forall xs, (forall z, In z xs -> fin z /\ Rabs (B2R z) <= X) ->
     Forall2 (fun y z => fin y /\ Rabs (B2R y - z) <= D) (fst (run fstep sf xs)) (fst (run step s (map B2R xs)))) ->
  (forall xs E, 0 <= E -> (forall z, In z xs -> Rabs z <= E) -> forall y, In y (fst (run step s xs)) -> Rabs y <= G * E) ->
  settles (response step s (tone om w)) (tone om (cmul H w)) -> carries x om w eps X ->
  hums (played fstep sf x) om (cmul H w) (D + G * eps).
Proof.
  intros L S0 T B (K & r & R & ST) CA. exists K, r. split; [exact R|]. intro n. unfold played.
  set (xs := map x (seq 0 (S n))).
  assert (TR := T xs). specialize (TR ltac:(intros z Hz; apply in_map_iff in Hz; destruct Hz as (i & <- & _); destruct (CA i) as (F & A & _); exact (conj F A))).
  pose proof (Forall2_nth _ _ _ f0 0 TR n) as TN. rewrite run_len in TN. unfold xs in TN at 1. rewrite map_length, seq_length in TN. specialize (TN ltac:(lia)).
  destruct TN as [F E]. split; [exact F|].
  assert (EX : nth n (fst (run step s (map B2R xs))) 0 = out step s (fun i => B2R (x i)) n).
  { rewrite <- response_out. unfold response, xs. rewrite map_map. reflexivity. }
  rewrite EX in E. specialize (ST n). rewrite response_out in ST.
  pose proof (out_sub step sub L s s (fun i => B2R (x i)) (tone om w) n) as OS. rewrite S0 in OS.
  assert (BD : Rabs (out step s (fun i => B2R (x i) - tone om w i) n) <= G * eps).
  { assert (E0 : 0 <= eps) by (destruct (CA 0%nat) as (_ & _ & Q); pose proof (Rabs_pos (B2R (x 0%nat) - tone om w 0)); lra).
    apply (B (map (fun i => B2R (x i) - tone om w i) (seq 0 (S n))) eps E0); [|apply out_in].
    intros z Hz. apply in_map_iff in Hz. destruct Hz as (i & <- & _). apply CA. }
  rewrite OS in BD. fold xs. apply Rabs_le_inv in BD. apply Rabs_le_inv in E. apply Rabs_le_inv in ST. apply Rabs_le. lra.
Qed.
Definition hsub (a b : hist R) : hist R := mkH (h0 a - h0 b) (h1 a - h1 b) (h2 a - h2 b).
Definition hsub2 (a b : hist R * hist R) : hist R * hist R := (hsub (fst a) (fst b), hsub (snd a) (snd b)).
Definition bsub (a b : bph R) : bph R := mkBPH (bh_x1 a - bh_x1 b) (bh_x2 a - bh_x2 b) (bh_y1 a - bh_y1 b) (bh_y2 a - bh_y2 b).
Lemma lp_linear c s s' x x' : let step := lp_step Rplus Rmult c in step (hsub s s') (x - x') = (fst (step s x) - fst (step s' x'), hsub (snd (step s x)) (snd (step s' x'))).
Proof. unfold lp_step, lp_out, hsub. cbn [fst snd h0 h1 h2]. f_equal; [ring|]. f_equal. ring. Qed.
Lemma hp_linear c s s' x x' : let step := hp_step Rplus Rmult c in step (hsub2 s s') (x - x') = (fst (step s x) - fst (step s' x'), hsub2 (snd (step s x)) (snd (step s' x'))).
Proof. destruct s as [sx sy]. destruct s' as [sx' sy']. unfold hp_step, hp_out, hsub2, hsub. cbn [fst snd h0 h1 h2]. f_equal; [ring|]. f_equal. f_equal. ring. Qed.
Lemma bp_linear c s s' x x' : let step := bp_stepR c in step (bsub s s') (x - x') = (fst (step s x) - fst (step s' x'), bsub (snd (step s x)) (snd (step s' x'))).
Proof. unfold bp_stepR, bp_step, bsub. cbn [fst snd bh_x1 bh_x2 bh_y1 bh_y2 a_add a_sub a_mul AR]. f_equal; [ring|]. f_equal. ring. Qed.
Lemma hsub0 : hsub (hist0 0) (hist0 0) = hist0 0.
Proof. unfold hsub, hist0. cbn [h0 h1 h2]. rewrite Rminus_0_r. reflexivity. Qed.
Theorem lp_tone_f32 m fc r x om w eps X : cos_accurate m -> pow_int_accurate m -> let s := lp_new m fc r in fle (of_Z 600) (lp_fc s) = true ->
  bpow radix2 (-100) <= X <= bpow radix2 90 -> carries x om w eps X ->
  let f := B2R (lp_fc s) in let q := B2R (lp_r s) in
  hums (played lp_process s x) om (cmul (lp_H f q om) w) (lp_drift f * X + (6 / rad f + 3) * eps).
Proof.
  intros HC HP s H6 HX CA f q. destruct (params_ok fc r H6) as ((Ff & Bf) & (Fr & Br)).
  change (clamp_fc fc) with (lp_fc s) in Bf. change (clamp_r r) with (lp_r s) in Br. fold f in Bf. fold q in Br.
  apply (tone_through lp_process s (lpR f q) hsub (hist0 0) om w (lp_H f q om) x eps X); [intros; apply lp_linear|apply hsub0| | |apply lowpass_tone; lra|exact CA].
  - intros xs Hxs. exact (lp_tracks m fc r X xs HC HP H6 HX Hxs).
  - intros xs E E0 Hxs. exact (lowpass_stable f q E xs ltac:(lra) Br E0 Hxs).
Qed.
Theorem hp_tone_f32 m fc r x om w eps X : cos_accurate m -> pow_int_accurate m -> let s := hp_new m fc r in fle (of_Z 600) (hp_fc s) = true ->
  bpow radix2 (-100) <= X <= bpow radix2 90 -> carries x om w eps X ->
  let f := B2R (hp_fc s) in let q := B2R (hp_r s) in
  hums (played hp_process s x) om (cmul (hp_H f q om) w) (hp_drift f * X + (12 / rad f + 8) * eps).
Proof.
  intros HC HP s H6 HX CA f q. destruct (params_ok fc r H6) as ((Ff & Bf) & (Fr & Br)).
  change (clamp_fc fc) with (hp_fc s) in Bf. change (clamp_r r) with (hp_r s) in Br. fold f in Bf. fold q in Br.
  apply (tone_through hp_process s (hpR f q) hsub2 (hist0 0, hist0 0) om w (hp_H f q om) x eps X);
    [intros; apply hp_linear|unfold hsub2; cbn [fst snd]; rewrite hsub0; reflexivity| | |apply highpass_tone; lra|exact CA].
  - intros xs Hxs. exact (hp_tracks m fc r X xs HC HP H6 HX Hxs).
  - intros xs E E0 Hxs y Hy. pose proof (highpass_stable f q E xs ltac:(lra) Br E0 Hxs y Hy) as B. unfold rad. unfold Rdiv in *. lra.
Qed.

(** ** BandPass *)
Lemma bp_at_bound lo hi E xs : 0 < lo < 24000 -> 0 < hi < 24000 -> 0 <= E -> (forall x, In x xs -> Rabs x <= E) ->
  forall y, In y (fst (run (bp_stepR (bp_at lo hi)) (mkBPH 0 0 0 0) xs)) -> Rabs y <= 2 / ((1 - Rabs (pole_at lo)) * (1 - Rabs (pole_at hi))) * E.
Proof.
  intros Hl Hh HE Hx y Hy. unfold bp_at in Hy.
  assert (PL : 0 < bp_theta AR lo) by (apply bp_theta_pos; lra). assert (PH : 0 < bp_theta AR hi) by (apply bp_theta_pos; lra).
  pose proof (bp_bl_range _ PL) as RL. pose proof (bp_bl_range _ PH) as RH.
  pose proof (bp_al_range _ PL) as AL. pose proof (bp_al_range _ PH) as AH.
  assert (A0 : 0 <= bp_a0 AR lo hi <= 1).
  { unfold bp_a0. cbn [a_sub a_mul a_Z AR]. split; [apply Rmult_le_pos; lra|]. nra. }
  unfold bp_b1, bp_b2 in Hy. cbn [a_add a_mul AR] in Hy.
  pose proof (bp_run_bound (bp_a0 AR lo hi) (bp_bl AR (bp_theta AR hi)) (bp_bl AR (bp_theta AR lo)) E (proj1 A0) RH RL xs (mkBPH 0 0 0 0)
    (bpI_zero _ _ _ _ (proj1 A0) RH RL HE) Hx y Hy) as B.
  eapply Rle_trans; [exact B|]. unfold bpY, bpW.
  assert (EL : bp_bl AR (bp_theta AR lo) = pole_at lo) by reflexivity. assert (EH : bp_bl AR (bp_theta AR hi) = pole_at hi) by reflexivity.
  rewrite EL, EH in *. pose proof (Rabs_lt1 _ RL) as P1. pose proof (Rabs_lt1 _ RH) as P2.
  replace (2 * bp_a0 AR lo hi * E / (1 - Rabs (pole_at hi)) / (1 - Rabs (pole_at lo)))
    with (bp_a0 AR lo hi * (2 / ((1 - Rabs (pole_at lo)) * (1 - Rabs (pole_at hi))) * E)) by (field; lra).
  rewrite <- (Rmult_1_l (2 / _ * E)) at 2. apply Rmult_le_compat_r; [|apply A0].
  unfold Rdiv. apply Rmult_le_pos; [apply Rmult_le_pos; [lra|]|lra]. left. apply Rinv_0_lt_compat. apply Rmult_lt_0_compat; lra.
Qed.
Theorem bp_tone_f32 m f q x om w eps X : tan_accurate m -> let s := bp_new m f q in
  audible (fst (bp_get_corners m s)) -> audible (snd (bp_get_corners m s)) ->
  bpow radix2 (-100) <= X <= bpow radix2 90 -> carries x om w eps X ->
  let lo := B2R (fst (bp_get_corners m s)) in let hi := B2R (snd (bp_get_corners m s)) in
  hums (played (bp_process m) s x) om (cmul (bp_H lo hi om) w) (bp_drift lo hi * X + 2 / ((1 - Rabs (pole_at lo)) * (1 - Rabs (pole_at hi))) * eps).
Proof.
  intros HT s HL HH HX CA lo hi. destruct (audible_R _ HL) as [_ RL]. destruct (audible_R _ HH) as [_ RH]. fold lo in RL. fold hi in RH.
  apply (tone_through (bp_process m) s (bp_stepR (bp_at lo hi)) bsub (mkBPH 0 0 0 0) om w (bp_H lo hi om) x eps X);
    [intros; apply bp_linear|unfold bsub; cbn [bh_x1 bh_x2 bh_y1 bh_y2]; rewrite Rminus_0_r; reflexivity| | |unfold bp_at; apply bp_tone; lra|exact CA].
  - intros xs Hxs. exact (bp_tracks m f q X xs HT HL HH HX Hxs).
  - intros xs E E0 Hxs. exact (bp_at_bound lo hi E xs ltac:(lra) ltac:(lra) E0 Hxs).
Qed.
(** in terms of the corners asked for *)
Lemma R_audible f : fin f -> 20 <= B2R f <= 20000 -> audible f.
Proof.
  intros F R. destruct (of_Z64 20 ltac:(lia)) as [F1 V1]. destruct (of_Z64 20000 ltac:(lia)) as [F2 V2].
  split; apply fle_true; try assumption; rewrite ?V1, ?V2; lra.
Qed.
Theorem bp_asked_corners m a b : fin a -> fin b -> 20001 / 1000 <= B2R a <= 19999999 / 1000 -> 20001 / 1000 <= B2R b <= 19999999 / 1000 ->
  bpow radix2 (-20) <= Rabs (B2R a - B2R b) -> let c := bp_get_corners m (bp_from_corners m (a, b)) in
  audible (fst c) /\ audible (snd c) /\ Rmin (B2R a) (B2R b) * (1 - / 100000) <= B2R (fst c).
Proof.
  intros Fa Fb Ra Rb D c.
  assert (B10 : bpow radix2 (-10) = / 1024) by reflexivity. assert (B20 : bpow radix2 20 = 1048576) by reflexivity.
  assert (Qa : bpow radix2 (-10) <= B2R a <= bpow radix2 20) by (rewrite B10, B20; lra). assert (Qb : bpow radix2 (-10) <= B2R b <= bpow radix2 20) by (rewrite B10, B20; lra).
  assert (RT : fin (fst c) /\ fin (snd c) /\ B2R (fst c) <= B2R (snd c) /\
    Rabs (B2R (fst c) - Rmin (B2R a) (B2R b)) <= bpow radix2 (-27) * Rmax (B2R a) (B2R b) /\ Rabs (B2R (snd c) - Rmax (B2R a) (B2R b)) <= bpow radix2 (-27) * Rmax (B2R a) (B2R b)).
  { destruct (from_corners_ok m a b (conj Fa Qa) (conj Fb Qb) D) as (F1 & F2 & LE & E1 & E2 & _). exact (conj F1 (conj F2 (conj LE (conj E1 E2)))). }
  clearbody c. destruct RT as (F1 & F2 & LE & E1 & E2).
  change (bpow radix2 (-27)) with (/ 134217728) in *. apply Rabs_le_inv in E1. apply Rabs_le_inv in E2.
  assert (L : 20001 / 1000 <= Rmin (B2R a) (B2R b)) by (apply Rmin_glb; lra). assert (H : Rmax (B2R a) (B2R b) <= 19999999 / 1000) by (apply Rmax_lub; lra).
  assert (LH : Rmin (B2R a) (B2R b) <= Rmax (B2R a) (B2R b)) by (eapply Rle_trans; [apply Rmin_l|apply Rmax_l]).
  split; [|split]; [apply R_audible; [exact F1|]|apply R_audible; [exact F2|]|]; lra.
Qed.
Theorem bp_corners_stable m a b X xs : tan_accurate m -> fin a -> fin b -> 20001 / 1000 <= B2R a <= 19999999 / 1000 -> 20001 / 1000 <= B2R b <= 19999999 / 1000 ->
  bpow radix2 (-20) <= Rabs (B2R a - B2R b) -> bpow radix2 (-100) <= X <= bpow radix2 90 -> (forall x, In x xs -> fin x /\ Rabs (B2R x) <= X) ->
  forall y, In y (fst (run (bp_process m) (bp_from_corners m (a, b)) xs)) -> fin y /\ Rabs (B2R y) <= (34001 / Rmin (B2R a) (B2R b) + 3) * X.
Proof.
  intros HT Fa Fb Ra Rb D HX Hxs y Hy. destruct (bp_asked_corners m a b Fa Fb Ra Rb D) as (A1 & A2 & A3). unfold bp_from_corners in *.
  destruct (bp_f32_stable m _ _ X xs HT A1 A2 HX Hxs y Hy) as [F B]. split; [exact F|]. apply Rle_trans with (1 := B).
  assert (X0 : 0 < X) by (pose proof (bpow_gt_0 radix2 (-100)); lra). apply Rmult_le_compat_r; [lra|]. apply Rplus_le_compat_r.
  assert (L : 20001 / 1000 <= Rmin (B2R a) (B2R b)) by (apply Rmin_glb; lra).
  set (l := Rmin (B2R a) (B2R b)) in *. apply Rle_trans with (34000 / (l * (1 - / 100000))).
  - unfold Rdiv. apply Rmult_le_compat_l; [lra|]. apply Rinv_le; lra.
  - replace (34000 / (l * (1 - / 100000))) with (34000 / (1 - / 100000) * / l) by (field; lra). unfold Rdiv at 2. apply Rmult_le_compat_r; [left; apply Rinv_0_lt_compat; lra|]. lra.
Qed.
