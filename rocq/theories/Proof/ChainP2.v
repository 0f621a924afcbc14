(** * Every linear modifier of the library turns a tone into a tone *)
From Coq Require Import ZArith List Bool Reals Lra Lia Psatz.
From Flocq Require Import Core.Core IEEE754.BinarySingleNaN.
From Verif Require Import Model.Floats Model.Utils Model.Modifiers Model.Filters Model.Parts Spec.Libm Spec.Response Spec.Track Spec.Comb Spec.Chain
  Proof.FloatFacts Proof.SampleFormatP Proof.FormatsP Proof.ModifiersP Proof.FilterNanP Proof.CombP Proof.GenericP Proof.FiltersP2 Proof.BandPassP Proof.BandPassF32P
  Proof.FilterF32P Proof.FilterF32P2 Proof.ResponseP Proof.ResponseP2 Proof.ResponseP3 Proof.CornersP Proof.TrackP Proof.TrackP2 Proof.TrackP3 Proof.ChainP.
Import ListNotations.
Local Open Scope R_scope.

Definition hadd (a b : hist R) : hist R := mkH (h0 a + h0 b) (h1 a + h1 b) (h2 a + h2 b).
Definition hsc (c : R) (a : hist R) : hist R := mkH (c * h0 a) (c * h1 a) (c * h2 a).
Definition hadd2 (a b : hist R * hist R) := (hadd (fst a) (fst b), hadd (snd a) (snd b)).
Definition hsc2 (c : R) (a : hist R * hist R) := (hsc c (fst a), hsc c (snd a)).
Definition badd (a b : bph R) : bph R := mkBPH (bh_x1 a + bh_x1 b) (bh_x2 a + bh_x2 b) (bh_y1 a + bh_y1 b) (bh_y2 a + bh_y2 b).
Definition bsc (c : R) (a : bph R) : bph R := mkBPH (c * bh_x1 a) (c * bh_x2 a) (c * bh_y1 a) (c * bh_y2 a).
Lemma lp_lin co c s s' x x' : let step := lp_step Rplus Rmult co in
  step (hadd s (hsc c s')) (x + c * x') = (fst (step s x) + c * fst (step s' x'), hadd (snd (step s x)) (hsc c (snd (step s' x')))).
Proof. unfold lp_step, lp_out, hadd, hsc. cbn [fst snd h0 h1 h2]. f_equal; [ring|]. f_equal. ring. Qed.
Lemma hp_lin co c s s' x x' : let step := hp_step Rplus Rmult co in
  step (hadd2 s (hsc2 c s')) (x + c * x') = (fst (step s x) + c * fst (step s' x'), hadd2 (snd (step s x)) (hsc2 c (snd (step s' x')))).
Proof. destruct s as [sx sy]. destruct s' as [sx' sy']. unfold hp_step, hp_out, hadd2, hsc2, hadd, hsc. cbn [fst snd h0 h1 h2]. f_equal; [ring|]. f_equal. f_equal. ring. Qed.
Lemma bp_lin co c s s' x x' : let step := bp_stepR co in
  step (badd s (bsc c s')) (x + c * x') = (fst (step s x) + c * fst (step s' x'), badd (snd (step s x)) (bsc c (snd (step s' x')))).
Proof. unfold bp_stepR, bp_step, badd, bsc. cbn [fst snd bh_x1 bh_x2 bh_y1 bh_y2 a_add a_sub a_mul AR]. f_equal; [ring|]. f_equal. ring. Qed.
Lemma hadd0 c : hadd (hist0 0) (hsc c (hist0 0)) = hist0 0.
Proof. unfold hadd, hsc, hist0. cbn [h0 h1 h2]. rewrite Rmult_0_r, Rplus_0_r. reflexivity. Qed.

Lemma run_res_total {St} (step : St -> f32 -> f32 * St) xs : forall s, run_res (fun s x => Ok (step s x)) s xs = Ok (run step s xs).
Proof. induction xs as [|x r IH]; intro s; [reflexivity|]. cbn [run_res run]. destruct (step s x) as [y s']. cbn [bind]. rewrite IH. destruct (run step s' r). reflexivity. Qed.
(** a part run inside [mpart] *)
Lemma wrap_run {St} (step : St -> f32 -> f32 * St) (wrap : St -> mpart) m : (forall s x, m_step m (wrap s) x = let '(y, s') := step s x in Ok (y, wrap s')) ->
  forall xs s, run_res (m_step m) (wrap s) xs = Ok (fst (run step s xs), wrap (snd (run step s xs))).
Proof.
  intros H xs. induction xs as [|x r IH]; intro s; [reflexivity|]. cbn [run_res run]. rewrite H. destruct (step s x) as [y s']. cbn [bind]. rewrite IH. cbn [bind].
  destruct (run step s' r). reflexivity.
Qed.
Lemma wrap_res {St} (step : St -> f32 -> res (f32 * St)) (wrap : St -> mpart) m : (forall s x, m_step m (wrap s) x = do (y, s') <- step s x; Ok (y, wrap s')) ->
  forall xs s, run_res (m_step m) (wrap s) xs = do (ys, s') <- run_res step s xs; Ok (ys, wrap s').
Proof.
  intros H xs. induction xs as [|x r IH]; intro s; [reflexivity|]. cbn [run_res]. rewrite H. destruct (step s x) as [[y s']|]; [|reflexivity]. cbn [bind]. rewrite IH.
  destruct (run_res step s' r) as [[ys s2]|]; reflexivity.
Qed.

Lemma near_amp om w eps K rho X X' xs : X <= X' -> near_tone om w eps K rho X xs -> near_tone om w eps K rho X' xs.
Proof. intros H N j x E. destruct (N j x E) as (A & B & C). split; [exact A|]. split; [lra|exact C]. Qed.
Lemma near_in om w eps K rho X xs : near_tone om w eps K rho X xs -> forall z, In z xs -> fin z /\ Rabs (B2R z) <= X.
Proof. intros N z Hz. apply In_nth_error in Hz. destruct Hz as [j Hj]. destruct (N j z Hj) as (F & A & _). exact (conj F A). Qed.

Section Parts.
Variables (m : libm) (om : R) (w : C) (K rho X : R).
Hypothesis HK : 0 <= K. Hypothesis Hr : 0 <= rho < 1. Hypothesis HX : bpow radix2 (-100) <= X <= bpow radix2 90.
Lemma X0 : 0 < X. Proof. pose proof (bpow_gt_0 radix2 (-100)). lra. Qed.
(** what is to be shown of every part *)
Definition passes (p : lpart) : Prop :=
  exists K' rho', 0 <= K' /\ 0 <= rho' < 1 /\ forall eps xs, 0 <= eps -> near_tone om w eps K rho X xs ->
    exists ys p', run_res (m_step m) (l_part m p) xs = Ok (ys, p') /\ length ys = length xs /\
      near_tone om (cmul (l_H m p om) w) (l_drift m p * X + l_gain m p * eps) K' rho' ((1 + l_gain m p + l_drift m p) * X) ys.

Lemma low_passes fc r : cos_accurate m -> pow_int_accurate m -> l_ok m (LLow fc r) -> passes (LLow fc r).
Proof.
  intros HC HP H6. set (s := lp_new m fc r). destruct (params_ok fc r H6) as ((Ff & Bf) & (Fr & Br)).
  change (clamp_fc fc) with (lp_fc s) in Bf. change (clamp_r r) with (lp_r s) in Br. pose proof X0 as XP.
  destruct (tone_list lp_process s (lpR (B2R (lp_fc s)) (B2R (lp_r s))) hadd hsc (hist0 0) (lp_H (B2R (lp_fc s)) (B2R (lp_r s))) (lp_drift (B2R (lp_fc s))) (6 / rad (B2R (lp_fc s)) + 3) X) with (om := om) (w := w) (K := K) (rho := rho)
    as (K' & rho' & A & B & T); try assumption.
  - intros. apply lp_lin.
  - apply hadd0.
  - unfold lpR, lp_step, lp_out, hist0. cbn [h0 h1 h2]. rewrite !Rmult_0_r, !Rplus_0_r. reflexivity.
  - intros xs Hxs. exact (lp_tracks m fc r X xs HC HP H6 HX Hxs).
  - intros xs E E0 Hxs. exact (lowpass_stable (B2R (lp_fc s)) (B2R (lp_r s)) E xs ltac:(lra) Br E0 Hxs).
  - intros. apply lowpass_tone; lra.
  - lra.
  - exists K', rho'. split; [exact A|]. split; [exact B|]. intros eps xs He N. specialize (T eps xs He N).
    exists (fst (run lp_process s xs)), (MLow (snd (run lp_process s xs))). split; [apply (wrap_run lp_process MLow m); reflexivity|]. split; [apply run_len|].
    eapply near_amp; [|exact T]. cbn [l_gain l_drift]. fold s. lra.
Qed.
Lemma high_passes fc r : cos_accurate m -> pow_int_accurate m -> l_ok m (LHigh fc r) -> passes (LHigh fc r).
Proof.
  intros HC HP H6. set (s := hp_new m fc r). destruct (params_ok fc r H6) as ((Ff & Bf) & (Fr & Br)).
  change (clamp_fc fc) with (hp_fc s) in Bf. change (clamp_r r) with (hp_r s) in Br. pose proof X0 as XP.
  destruct (tone_list hp_process s (hpR (B2R (hp_fc s)) (B2R (hp_r s))) hadd2 hsc2 (hist0 0, hist0 0) (hp_H (B2R (hp_fc s)) (B2R (hp_r s))) (hp_drift (B2R (hp_fc s))) (12 / rad (B2R (hp_fc s)) + 8) X) with (om := om) (w := w) (K := K) (rho := rho)
    as (K' & rho' & A & B & T); try assumption.
  - intros. apply hp_lin.
  - intro c. unfold hadd2, hsc2. cbn [fst snd]. rewrite hadd0. reflexivity.
  - unfold hpR, hp_step, hp_out, hist0. cbn [h0 h1 h2]. rewrite !Rmult_0_r, !Rplus_0_r. reflexivity.
  - intros xs Hxs. exact (hp_tracks m fc r X xs HC HP H6 HX Hxs).
  - intros xs E E0 Hxs y Hy. pose proof (highpass_stable (B2R (hp_fc s)) (B2R (hp_r s)) E xs ltac:(lra) Br E0 Hxs y Hy) as BB. unfold rad. unfold Rdiv in *. lra.
  - intros. apply highpass_tone; lra.
  - lra.
  - exists K', rho'. split; [exact A|]. split; [exact B|]. intros eps xs He N. specialize (T eps xs He N).
    exists (fst (run hp_process s xs)), (MHigh (snd (run hp_process s xs))). split; [apply (wrap_run hp_process MHigh m); reflexivity|]. split; [apply run_len|].
    eapply near_amp; [|exact T]. cbn [l_gain l_drift]. fold s. lra.
Qed.
Lemma band_passes f q : tan_accurate m -> l_ok m (LBand f q) -> passes (LBand f q).
Proof.
  intros HT [HL HH]. set (s := bp_new m f q) in *. destruct (audible_R _ HL) as [_ RL]. destruct (audible_R _ HH) as [_ RH].
  set (lo := B2R (fst (bp_get_corners m s))) in *. set (hi := B2R (snd (bp_get_corners m s))) in *. pose proof X0 as XP.
  destruct (tone_list (bp_process m) s (bp_stepR (bp_at lo hi)) badd bsc (mkBPH 0 0 0 0) (bp_H lo hi) (bp_drift lo hi) (2 / ((1 - Rabs (pole_at lo)) * (1 - Rabs (pole_at hi)))) X) with (om := om) (w := w) (K := K) (rho := rho)
    as (K' & rho' & A & B & T); try assumption.
  - intros. apply bp_lin.
  - intro c. unfold badd, bsc. cbn [bh_x1 bh_x2 bh_y1 bh_y2]. rewrite Rmult_0_r, Rplus_0_r. reflexivity.
  - unfold bp_stepR, bp_step. cbn [bh_x1 bh_x2 bh_y1 bh_y2 a_add a_sub a_mul AR]. rewrite !Rminus_0_r, !Rmult_0_r, Rplus_0_r, Rminus_0_r. reflexivity.
  - intros xs Hxs. exact (bp_tracks m f q X xs HT HL HH HX Hxs).
  - intros xs E E0 Hxs. exact (bp_at_bound lo hi E xs ltac:(lra) ltac:(lra) E0 Hxs).
  - intros. unfold bp_at. apply bp_tone; lra.
  - lra.
  - exists K', rho'. split; [exact A|]. split; [exact B|]. intros eps xs He N. specialize (T eps xs He N).
    exists (fst (run (bp_process m) s xs)), (MBand (snd (run (bp_process m) s xs))). split; [apply (wrap_run (bp_process m) MBand m); reflexivity|]. split; [apply run_len|].
    eapply near_amp; [|exact T]. cbn [l_gain l_drift]. fold s. fold lo. fold hi. lra.
Qed.
Lemma pass_passes : passes LPass.
Proof.
  exists K, rho. split; [exact HK|]. split; [exact Hr|]. intros eps xs He N. pose proof X0 as XP.
  pose proof (wrap_run passthrough_process (fun _ => MPass) m (fun s x => eq_refl) xs tt) as E. cbn beta in E.
  assert (F : forall xs, fst (run passthrough_process tt xs) = xs).
  { clear. induction xs as [|x r IH]; [reflexivity|]. cbn [run passthrough_process]. destruct (run passthrough_process tt r) eqn:Q. cbn [fst] in *. rewrite IH. reflexivity. }
  exists xs, MPass. rewrite F in E. split; [exact E|]. split; [reflexivity|]. intros j x Hj. destruct (N j x Hj) as (A & B & D). split; [exact A|]. cbn [l_gain l_drift l_H]. split; [lra|].
  replace (cmul (cre 1) w) with w by (destruct w; unfold cmul, cre; cbn [fst snd]; f_equal; ring). lra.
Qed.
Lemma gain_passes a : l_ok m (LGain a) -> passes (LGain a).
Proof.
  intros [Fa Ba]. exists (Rabs (B2R a) * K), rho. split; [apply Rmult_le_pos; [apply Rabs_pos|exact HK]|]. split; [exact Hr|]. intros eps xs He N. pose proof X0 as XP.
  pose proof (wrap_run gain_process MGain m (fun s x => eq_refl) xs a) as E.
  assert (F : forall xs, fst (run gain_process a xs) = map (fun x => fmul x a) xs).
  { clear. induction xs as [|x r IH]; [reflexivity|]. cbn [run gain_process map]. destruct (run gain_process a r) eqn:Q. cbn [fst] in *. rewrite IH. reflexivity. }
  do 2 eexists. split; [exact E|]. rewrite F. split; [apply map_length|]. intros j y Hj. rewrite nth_error_map in Hj. destruct (nth_error xs j) as [x|] eqn:Ex; [|discriminate].
  injection Hj as <-. destruct (N j x Ex) as (A & B & D). cbn [l_gain l_drift l_H]. set (g := Rabs (B2R a)) in *. assert (G0 : 0 <= g) by apply Rabs_pos.
  assert (BM : Rabs (B2R x * B2R a) <= X * g) by (rewrite Rabs_mult; fold g; apply Rmult_le_compat; try apply Rabs_pos; lra).
  assert (BM2 : Rabs (B2R x * B2R a) <= bpow radix2 120).
  { eapply Rle_trans; [exact BM|]. apply Rle_trans with (bpow radix2 90 * bpow radix2 30); [apply Rmult_le_compat; lra|]. rewrite <- bpow_plus. apply bpow_le. lia. }
  destruct (fmul_le x a (bpow radix2 120) A Fa) as (FM & RM & _).
  { apply generic_format_bpow. vm_compute. discriminate. } { apply bpow_lt. lia. } { exact BM2. }
  split; [exact FM|]. pose proof (rnd32_gen _ _ BM) as EM. rewrite <- RM in EM.
  assert (TINY : bpow radix2 (-150) <= u24 * X).
  { apply Rle_trans with (u24 * bpow radix2 (-100)); [|apply Rmult_le_compat_l; lra]. change u24 with (bpow radix2 (-24)). rewrite <- bpow_plus. apply bpow_le. lia. }
  change (bpow radix2 (-24)) with u24.
  assert (EM' : Rabs (B2R (fmul x a) - B2R x * B2R a) <= u24 * (g + 1) * X) by (eapply Rle_trans; [exact EM|]; lra).
  clear EM. split.
  - apply Rabs_le. apply Rabs_le_inv in EM'. apply Rabs_le_inv in BM. lra.
  - replace (tone om (cmul (cre (B2R a)) w) j) with (tone om w j * B2R a) by (unfold tone, cmul, cre; cbn [fst snd]; ring).
    assert (DM : Rabs ((B2R x - tone om w j) * B2R a) <= g * (eps + K * rho ^ j)) by (rewrite Rabs_mult, Rmult_comm; fold g; apply Rmult_le_compat_l; assumption).
    apply Rabs_le. apply Rabs_le_inv in EM'. apply Rabs_le_inv in DM. lra.
Qed.

(** ** delays and echoes *)
Definition csum (v : C) : R := Rabs (fst v) + Rabs (snd v).
Lemma tone_csum o v n : Rabs (tone o v n) <= csum v.
Proof.
  unfold tone, csum. pose proof (COS_bound (o * INR n)). pose proof (SIN_bound (o * INR n)).
  eapply Rle_trans; [apply Rabs_triang|]. rewrite Rabs_Ropp, !Rabs_mult.
  assert (C1 : Rabs (cos (o * INR n)) <= 1) by (apply Rabs_le; lra). assert (S1 : Rabs (sin (o * INR n)) <= 1) by (apply Rabs_le; lra).
  pose proof (Rabs_pos (fst v)). pose proof (Rabs_pos (snd v)). nra.
Qed.
Lemma csum_pos v : 0 <= csum v.
Proof. unfold csum. pose proof (Rabs_pos (fst v)). pose proof (Rabs_pos (snd v)). lra. Qed.
Lemma tone_delay o v n k : tone o (cmul (zi (o * INR n)) v) (n + k) = tone o v k.
Proof.
  unfold tone, cmul, zi. cbn [fst snd]. rewrite plus_INR. replace (o * (INR n + INR k)) with (o * INR n + o * INR k) by ring. rewrite cos_plus, sin_plus.
  set (a := o * INR n). set (b := o * INR k). pose proof (sin2_cos2 a) as Q. unfold Rsqr in Q.
  replace (_ - _) with ((sin a * sin a + cos a * cos a) * (fst v * cos b - snd v * sin b)) by ring. rewrite Q. ring.
Qed.
Lemma delay_passes d : passes (LDelay d).
Proof.
  set (n := length (delay_new d)). set (W := cmul (zi (om * INR n)) w). set (r := Rmax rho (/ 2)).
  assert (R1 : rho <= r) by apply Rmax_l. assert (R2 : / 2 <= r) by apply Rmax_r. assert (R3 : r < 1) by (apply Rmax_lub_lt; lra).
  exists ((K + csum W) * 2 ^ n), r. pose proof (csum_pos W) as C0. pose proof X0 as XP. assert (P2 : 0 < 2 ^ n) by (apply pow_lt; lra).
  split; [apply Rmult_le_pos; lra|]. split; [lra|]. intros eps xs He N.
  destruct (delay_exact n xs) as (ys & q & E & L & _ & Y). exists ys, (MDelay q).
  assert (EQ : delay_new d = repeat f0 n) by (unfold n, delay_new, zeros; rewrite repeat_length; reflexivity).
  split; [cbn [l_part]; rewrite EQ, (wrap_res delay_process MDelay m (fun s x => eq_refl)), E; reflexivity|]. split; [exact L|].
  intros j y Hj. assert (HL : (j < length xs)%nat) by (rewrite <- L; apply nth_error_Some; congruence). rewrite (Y j HL) in Hj.
  cbn [l_gain l_drift l_H]. fold n. fold W.
  assert (PR : forall i, 0 < r ^ i) by (intro i; apply pow_lt; lra). assert (P2r : 1 <= 2 ^ n * r ^ n) by (rewrite <- Rpow_mult_distr; apply pow_R1_Rle; lra).
  destruct (Nat.ltb_spec j n) as [Hn|Hn].
  - injection Hj as <-. split; [reflexivity|]. change (B2R (f0 : f32)) with 0. rewrite Rabs_R0. split; [lra|]. rewrite Rminus_0_l, Rabs_Ropp.
    eapply Rle_trans; [apply tone_csum|]. assert (PJ : r ^ n <= r ^ j) by (replace n with (j + (n - j))%nat by lia; rewrite pow_add; rewrite <- (Rmult_1_r (r ^ j)) at 2; apply Rmult_le_compat_l; [left; apply PR|]; rewrite <- (pow1 (n - j)); apply pow_incr; lra).
    assert (1 <= 2 ^ n * r ^ j) by (eapply Rle_trans; [exact P2r|apply Rmult_le_compat_l; lra]).
    assert (csum W * 1 <= csum W * (2 ^ n * r ^ j)) by (apply Rmult_le_compat_l; assumption).
    assert (0 <= K * (2 ^ n * r ^ j)) by (apply Rmult_le_pos; lra). lra.
  - destruct (N (j - n)%nat y Hj) as (A & B & D). split; [exact A|]. split; [lra|].
    assert (ET : tone om W j = tone om w (j - n)) by (replace j with (n + (j - n))%nat at 1 by lia; apply tone_delay). rewrite ET.
    eapply Rle_trans; [exact D|]. rewrite Rmult_0_l, Rplus_0_l, Rmult_1_l. apply Rplus_le_compat_l.
    assert (PI' : rho ^ (j - n) <= r ^ (j - n)) by (apply pow_incr; lra).
    assert (EJ : r ^ j = r ^ n * r ^ (j - n)) by (rewrite <- pow_add; f_equal; lia). rewrite EJ. specialize (PR (j - n)%nat). set (P := r ^ (j - n)) in *. set (Q := r ^ n) in *.
    assert (K * rho ^ (j - n) <= K * P) by (apply Rmult_le_compat_l; assumption).
    assert (K * P * 1 <= K * P * (2 ^ n * Q)) by (apply Rmult_le_compat_l; [apply Rmult_le_pos; lra|assumption]).
    assert (0 <= csum W * (2 ^ n * Q) * P) by (apply Rmult_le_pos; [apply Rmult_le_pos; lra|lra]). lra.
Qed.
End Parts.
Lemma bernoulli t n : 0 <= t <= 1 -> 1 - INR n * t <= (1 - t) ^ n.
Proof.
  intro H. induction n as [|n IH]; [simpl; lra|]. rewrite S_INR. change ((1 - t) ^ S n) with ((1 - t) * (1 - t) ^ n).
  assert ((1 - t) * (1 - INR n * t) <= (1 - t) * (1 - t) ^ n) by (apply Rmult_le_compat_l; lra).
  assert (0 <= INR n * t * t) by (apply Rmult_le_pos; [apply Rmult_le_pos; [apply pos_INR|]|]; lra). lra.
Qed.
Lemma tone_add o a b k : tone o (cadd a b) k = tone o a k + tone o b k.
Proof. unfold tone, cadd. cbn [fst snd]. ring. Qed.
Lemma tone_scale o g a k : tone o (cmul (cre g) a) k = g * tone o a k.
Proof. unfold tone, cmul, cre. cbn [fst snd]. ring. Qed.
