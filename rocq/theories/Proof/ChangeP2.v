(** * A retuned filter goes over to what a new one would play *)
From Coq Require Import ZArith List Bool Reals Lra Lia Psatz.
From Flocq Require Import Core.Core IEEE754.BinarySingleNaN.
From Verif Require Import Model.Floats Model.Modifiers Model.Filters Spec.Libm Spec.Response Spec.Track Spec.Change Proof.FloatFacts Proof.SampleFormatP Proof.FormatsP
  Proof.GenericP Proof.GeneratorsP Proof.GeneratorsP4 Proof.FiltersP Proof.FiltersP2 Proof.NearP Proof.FilterF32P Proof.FilterF32P2 Proof.BandPassP
  Proof.BandPassF32P Proof.ResponseP Proof.ResponseP2 Proof.ResponseP3 Proof.CornersP Proof.TrackP Proof.TrackP2 Proof.TrackP3 Proof.ConvolveP Proof.ChangeP.
Import ListNotations.
Local Open Scope R_scope.

Lemma moves_over_i {SF St} (fstep : SF -> f32 -> f32 * SF) (sf : SF) (step : St -> R -> R * St) (s s0 : St) (x : nat -> f32) X D :
  (forall xs, (forall z, In z xs -> fin z /\ Rabs (B2R z) <= X) ->
     Forall2 (fun y z => fin y /\ Rabs (B2R y - z) <= D) (fst (run fstep sf xs)) (fst (run step s (map B2R xs)))) ->
  (forall n, fin (x n) /\ Rabs (B2R (x n)) <= X) ->
  settles (response step s (fun n => B2R (x n))) (response step s0 (fun n => B2R (x n))) ->
  moves_over (played fstep sf x) (response step s (fun n => B2R (x n))) (response step s0 (fun n => B2R (x n))) D.
Proof.
  intros T HX (K & rho & R & ST).
  assert (TN : forall n, fin (played fstep sf x n) /\ Rabs (B2R (played fstep sf x n) - response step s (fun n => B2R (x n)) n) <= D).
  { intro n. set (xs := map x (seq 0 (S n))).
    assert (TR := T xs). specialize (TR ltac:(intros z Hz; apply in_map_iff in Hz; destruct Hz as (i & <- & _); apply HX)).
    pose proof (Forall2_nth _ _ _ f0 0 TR n) as TN. rewrite run_len in TN. unfold xs in TN at 1. rewrite map_length, seq_length in TN. specialize (TN ltac:(lia)).
    unfold xs in TN. rewrite map_map in TN. exact TN. }
  split; [exact TN|]. exists K, rho. split; [exact R|]. intro n. destruct (TN n) as [_ E]. specialize (ST n).
  eapply Rle_trans; [apply (via _ _ (response step s (fun n => B2R (x n)) n))|]. apply Rplus_le_compat; assumption.
Qed.
(** a tone under way when the filter changes *)
Lemma hums_over {St} (step : St -> R -> R * St) (sub : St -> St -> St) (s : St) y z om w H x eps X D G :
  (forall s s' x x', step (sub s s') (x - x') = (fst (step s x) - fst (step s' x'), sub (snd (step s x)) (snd (step s' x')))) -> sub s s = s ->
  (forall xs E, 0 <= E -> (forall z, In z xs -> Rabs z <= E) -> forall y, In y (fst (run step s xs)) -> Rabs y <= G * E) ->
  settles (response step s (tone om w)) (tone om (cmul H w)) -> carries x om w eps X ->
  moves_over y z (response step s (fun n => B2R (x n))) D -> hums y om (cmul H w) (D + G * eps).
Proof.
  intros L S0 B ST CA [FY (K1 & r1 & R1 & S1)].
  destruct (settles_K _ _ ST) as (K2 & r2 & KP & R2 & S2).
  assert (K1P : exists K, 0 <= K /\ forall n, Rabs (B2R (y n) - response step s (fun n => B2R (x n)) n) <= D + K * r1 ^ n).
  { exists (Rmax K1 0). split; [apply Rmax_r|]. intro n. eapply Rle_trans; [apply S1|]. apply Rplus_le_compat_l, Rmult_le_compat_r; [apply pow_le; lra|apply Rmax_l]. }
  destruct K1P as (K & K0 & SK). exists (K + K2), (Rmax r1 r2). split; [split; [apply Rle_trans with (1 := proj1 R1); apply Rmax_l|apply Rmax_lub_lt; lra]|].
  intro n. split; [apply FY|].
  pose proof (out_sub step sub L s s (fun i => B2R (x i)) (tone om w) n) as OS. rewrite S0 in OS.
  assert (BD : Rabs (out step s (fun i => B2R (x i) - tone om w i) n) <= G * eps).
  { assert (E0 : 0 <= eps) by (destruct (CA 0%nat) as (_ & _ & Q); pose proof (Rabs_pos (B2R (x 0%nat) - tone om w 0)); lra).
    apply (B (map (fun i => B2R (x i) - tone om w i) (seq 0 (S n))) eps E0); [|apply out_in].
    intros v Hv. apply in_map_iff in Hv. destruct Hv as (i & <- & _). apply CA. }
  rewrite OS in BD. specialize (SK n). specialize (S2 n). rewrite response_out in SK, S2.
  assert (P1 : K * r1 ^ n <= K * Rmax r1 r2 ^ n) by (apply Rmult_le_compat_l; [exact K0|apply pow_incr; split; [lra|apply Rmax_l]]).
  assert (P2 : K2 * r2 ^ n <= K2 * Rmax r1 r2 ^ n) by (apply Rmult_le_compat_l; [exact KP|apply pow_incr; split; [lra|apply Rmax_r]]).
  rewrite Rmult_plus_distr_r. apply Rabs_le_inv in BD. apply Rabs_le_inv in SK. apply Rabs_le_inv in S2. apply Rabs_le. lra.
Qed.

Lemma within3 a b c B : within [a; b; c] B -> hfin (mkH a b c) B.
Proof.
  intro W. destruct (W a ltac:(cbn; auto)) as [F0 B0]. destruct (W b ltac:(cbn; auto)) as [F1 B1]. destruct (W c ltac:(cbn; auto)) as [F2 B2].
  unfold hfin. cbn [h0 h1 h2]. repeat split; assumption.
Qed.

Section Filters.
Variable m : libm.
Theorem lp_retuned s s' fc r B X x : cos_accurate m -> pow_int_accurate m -> (s' = lp_set_fc m s fc \/ s' = lp_set_r m s r) ->
  fin (lp_fc s') -> 600 <= B2R (lp_fc s') <= 24000 -> fin (lp_r s') -> 0 <= B2R (lp_r s') <= 1 ->
  within (lp_past s) B -> B * pad_for (B2R (lp_fc s')) <= X -> bpow radix2 (-100) <= X <= bpow radix2 90 -> (forall n, fin (x n) /\ Rabs (B2R (x n)) <= X) ->
  let exact_filter := lpR (B2R (lp_fc s')) (B2R (lp_r s')) in
  moves_over (played lp_process s' x) (response exact_filter (nums (lp_outs s)) (fun n => B2R (x n))) (response exact_filter (hist0 0) (fun n => B2R (x n)))
    (lp_drift (B2R (lp_fc s')) * X).
Proof.
  intros HC HP OP Ff Bf Fr Br W HB HX Hx e.
  assert (Q : lp_coeff s' = lp_coeffs (A64 m) to32 (lp_fc s') (lp_r s') /\ lp_outs s' = lp_outs s) by (destruct OP as [-> | ->]; split; reflexivity).
  destruct Q as [TU EO]. apply moves_over_i with (X := X); [|exact Hx|apply lowpass_forget; lra].
  intros xs Hxs. change (nums (lp_outs s)) with (hR (lp_outs s)). rewrite <- EO. apply (lp_tuned m s' B X xs HC HP TU Ff Bf Fr Br); try assumption.
  rewrite EO. destruct (lp_outs s) as [a b c] eqn:E. apply within3. unfold lp_past in W. rewrite E in W. exact W.
Qed.
Theorem hp_retuned s s' fc r B X x : cos_accurate m -> pow_int_accurate m -> (s' = hp_set_fc m s fc \/ s' = hp_set_r m s r) ->
  fin (hp_fc s') -> 600 <= B2R (hp_fc s') <= 24000 -> fin (hp_r s') -> 0 <= B2R (hp_r s') <= 1 ->
  within (hp_past s) B -> B * pad_for (B2R (hp_fc s')) <= X -> bpow radix2 (-100) <= X <= bpow radix2 90 -> (forall n, fin (x n) /\ Rabs (B2R (x n)) <= X) ->
  let exact_filter := hpR (B2R (hp_fc s')) (B2R (hp_r s')) in
  moves_over (played hp_process s' x) (response exact_filter (nums (fst (hp_hist s)), nums (snd (hp_hist s))) (fun n => B2R (x n)))
    (response exact_filter (hist0 0, hist0 0) (fun n => B2R (x n))) (hp_drift (B2R (hp_fc s')) * X).
Proof.
  intros HC HP OP Ff Bf Fr Br W HB HX Hx e.
  assert (Q : hp_coeff s' = hp_coeffs (A64 m) to32 (hp_fc s') (hp_r s') /\ hp_hist s' = hp_hist s) by (destruct OP as [-> | ->]; split; reflexivity).
  destruct Q as [TU EO]. apply moves_over_i with (X := X); [|exact Hx|apply highpass_forget; lra].
  assert (W2 : hfin (fst (hp_hist s)) B /\ hfin (snd (hp_hist s)) B).
  { unfold hp_past in W. destruct (hp_hist s) as [[a b c] [d g h]]. cbn [fst snd h0 h1 h2] in *.
    split; apply within3; intros v Hv; apply W; cbn [In] in *; tauto. }
  intros xs Hxs. change (nums (fst (hp_hist s)), nums (snd (hp_hist s))) with (hR (fst (hp_hist s)), hR (snd (hp_hist s))). rewrite <- EO.
  rewrite <- EO in W2. destruct W2 as [W1 W2].
  exact (hp_tuned m s' B X xs HC HP TU Ff Bf Fr Br W1 W2 HB HX Hxs).
Qed.
Theorem bp_retuned s s' f q c B X x : tan_accurate m -> (s' = bp_set_f64 m s f \/ s' = bp_set_quality m s q \/ s' = bp_set_corners m s c) ->
  audible (fst (bp_get_corners m s')) -> audible (snd (bp_get_corners m s')) ->
  within (bp_past s) B -> 10 * B <= X -> bpow radix2 (-100) <= X <= bpow radix2 90 -> (forall n, fin (x n) /\ Rabs (B2R (x n)) <= X) ->
  let lo := B2R (fst (bp_get_corners m s')) in let hi := B2R (snd (bp_get_corners m s')) in
  moves_over (played (bp_process m) s' x) (response (bp_real lo hi) (bnums (bp_hist s)) (fun n => B2R (x n)))
    (response (bp_real lo hi) (mkBPH 0 0 0 0) (fun n => B2R (x n))) (bp_drift lo hi * X).
Proof.
  intros HT OP HL HH W HB HX Hx lo hi.
  assert (Q : bp_coeff s' = bp_coeffs (A64 m) (bp_f s') (bp_q s') /\ bp_hist s' = bp_hist s) by (destruct OP as [-> | [-> | ->]]; split; reflexivity).
  destruct Q as [TU EO]. destruct (audible_R _ HL) as [_ RL]. destruct (audible_R _ HH) as [_ RH]. fold lo in RL. fold hi in RH.
  apply moves_over_i with (X := X); [|exact Hx|unfold bp_real, bp_at; apply (bp_forget lo hi); lra].
  intros xs Hxs. change (bnums (bp_hist s)) with (bhR (bp_hist s)). rewrite <- EO. apply (bp_tuned m s' B X xs HT TU HL HH); try assumption.
  rewrite EO. unfold bp_past in W. destruct (bp_hist s) as [a b d g]. cbn [bh_x1 bh_x2 bh_y1 bh_y2] in W.
  destruct (W a ltac:(cbn; auto)) as [F0 B0]. destruct (W b ltac:(cbn; auto)) as [F1 B1]. destruct (W d ltac:(cbn; auto)) as [F2 B2]. destruct (W g ltac:(cbn; auto)) as [F3 B3].
  unfold bhfin. cbn [bh_x1 bh_x2 bh_y1 bh_y2]. repeat split; assumption.
Qed.
Lemma carries_bd x om w eps X : carries x om w eps X -> forall n, fin (x n) /\ Rabs (B2R (x n)) <= X.
Proof. intros CA n. destruct (CA n) as (F & B & _). split; assumption. Qed.
Theorem lp_retuned_tone s s' fc r B X x om w eps : cos_accurate m -> pow_int_accurate m -> (s' = lp_set_fc m s fc \/ s' = lp_set_r m s r) ->
  fin (lp_fc s') -> 600 <= B2R (lp_fc s') <= 24000 -> fin (lp_r s') -> 0 <= B2R (lp_r s') <= 1 ->
  within (lp_past s) B -> B * pad_for (B2R (lp_fc s')) <= X -> bpow radix2 (-100) <= X <= bpow radix2 90 -> carries x om w eps X ->
  let f := B2R (lp_fc s') in let q := B2R (lp_r s') in
  hums (played lp_process s' x) om (cmul (lp_H f q om) w) (lp_drift f * X + (6 / rad f + 3) * eps).
Proof.
  intros HC HP OP Ff Bf Fr Br W HB HX CA f q.
  pose proof (lp_retuned s s' fc r B X x HC HP OP Ff Bf Fr Br W HB HX (carries_bd _ _ _ _ _ CA)) as MV. cbv zeta in MV. fold f q in MV, Bf, Br.
  eapply (hums_over (lpR f q) hsub (hist0 0) _ _ om w (lp_H f q om) x eps X _ _ ltac:(intros; apply lp_linear) ltac:(apply hsub0)); [|apply lowpass_tone; lra|exact CA|exact MV].
  intros xs E E0 Hxs. exact (lowpass_stable f q E xs ltac:(lra) Br E0 Hxs).
Qed.
Theorem hp_retuned_tone s s' fc r B X x om w eps : cos_accurate m -> pow_int_accurate m -> (s' = hp_set_fc m s fc \/ s' = hp_set_r m s r) ->
  fin (hp_fc s') -> 600 <= B2R (hp_fc s') <= 24000 -> fin (hp_r s') -> 0 <= B2R (hp_r s') <= 1 ->
  within (hp_past s) B -> B * pad_for (B2R (hp_fc s')) <= X -> bpow radix2 (-100) <= X <= bpow radix2 90 -> carries x om w eps X ->
  let f := B2R (hp_fc s') in let q := B2R (hp_r s') in
  hums (played hp_process s' x) om (cmul (hp_H f q om) w) (hp_drift f * X + (12 / rad f + 8) * eps).
Proof.
  intros HC HP OP Ff Bf Fr Br W HB HX CA f q.
  pose proof (hp_retuned s s' fc r B X x HC HP OP Ff Bf Fr Br W HB HX (carries_bd _ _ _ _ _ CA)) as MV. cbv zeta in MV. fold f q in MV, Bf, Br.
  eapply (hums_over (hpR f q) hsub2 (hist0 0, hist0 0) _ _ om w (hp_H f q om) x eps X _ _ ltac:(intros; apply hp_linear) ltac:(unfold hsub2; cbn [fst snd]; rewrite hsub0; reflexivity));
    [|apply highpass_tone; lra|exact CA|exact MV].
  intros xs E E0 Hxs y Hy. pose proof (highpass_stable f q E xs ltac:(lra) Br E0 Hxs y Hy) as HS. unfold rad. unfold Rdiv in *. lra.
Qed.
Theorem bp_retuned_tone s s' f q c B X x om w eps : tan_accurate m -> (s' = bp_set_f64 m s f \/ s' = bp_set_quality m s q \/ s' = bp_set_corners m s c) ->
  audible (fst (bp_get_corners m s')) -> audible (snd (bp_get_corners m s')) ->
  within (bp_past s) B -> 10 * B <= X -> bpow radix2 (-100) <= X <= bpow radix2 90 -> carries x om w eps X ->
  let lo := B2R (fst (bp_get_corners m s')) in let hi := B2R (snd (bp_get_corners m s')) in
  hums (played (bp_process m) s' x) om (cmul (bp_H lo hi om) w) (bp_drift lo hi * X + 2 / ((1 - Rabs (pole_at lo)) * (1 - Rabs (pole_at hi))) * eps).
Proof.
  intros HT OP HL HH W HB HX CA lo hi. destruct (audible_R _ HL) as [_ RL]. destruct (audible_R _ HH) as [_ RH]. fold lo in RL. fold hi in RH.
  pose proof (bp_retuned s s' f q c B X x HT OP HL HH W HB HX (carries_bd _ _ _ _ _ CA)) as MV. cbv zeta in MV. fold lo hi in MV.
  eapply (hums_over (bp_real lo hi) bsub (mkBPH 0 0 0 0) _ _ om w (bp_H lo hi om) x eps X _ _ ltac:(intros; apply bp_linear)
    ltac:(unfold bsub; cbn [bh_x1 bh_x2 bh_y1 bh_y2]; rewrite Rminus_0_r; reflexivity)); [|unfold bp_real, bp_at; apply bp_tone; lra|exact CA|exact MV].
  intros xs E E0 Hxs. exact (bp_at_bound lo hi E xs ltac:(lra) ltac:(lra) E0 Hxs).
Qed.
End Filters.
