(** * Every linear modifier convolves with its impulse response *)
From Coq Require Import ZArith List Bool Reals Lra Lia Psatz.
From Coq Require Import Permutation.
From Flocq Require Import Core.Core IEEE754.BinarySingleNaN.
From Verif Require Import Model.Floats Model.Utils Model.Generators Model.Modifiers Model.Filters Model.Sounds Model.Parts Spec.Libm Spec.Response Spec.Track Spec.Comb Spec.SoundSpec Spec.Parts Spec.Taps Spec.Chain Spec.Convolve
  Proof.FloatFacts Proof.SampleFormatP Proof.FormatsP Proof.ModifiersP Proof.FilterNanP Proof.CombP Proof.GenericP Proof.FiltersP2 Proof.BandPassP Proof.BandPassF32P
  Proof.FilterF32P Proof.FilterF32P2 Proof.ResponseP Proof.ResponseP2 Proof.ResponseP3 Proof.CornersP Proof.TrackP Proof.TrackP2 Proof.TrackP3
  Proof.SoundsP Proof.SoundsP2 Proof.SoundsP3 Proof.PartsP Proof.ChainP Proof.ChainP2 Proof.ChainP3 Proof.ChainP4 Proof.ConvolveP Proof.TapsP Proof.TapsP2 Proof.TapsP3.
Import ListNotations.
Local Open Scope R_scope.

Lemma hadd20 c : hadd2 (hist0 0, hist0 0) (hsc2 c (hist0 0, hist0 0)) = (hist0 0, hist0 0).
Proof. unfold hadd2, hsc2. cbn [fst snd]. rewrite hadd0. reflexivity. Qed.
Lemma badd0 c : badd (mkBPH 0 0 0 0) (bsc c (mkBPH 0 0 0 0)) = mkBPH 0 0 0 0.
Proof. unfold badd, bsc. cbn [bh_x1 bh_x2 bh_y1 bh_y2]. rewrite Rmult_0_r, Rplus_0_r. reflexivity. Qed.
Lemma lpR_0 fc r : lpR fc r (hist0 0) 0 = (0, hist0 0).
Proof. unfold lpR, lp_step, lp_out, hist0. cbn [h0 h1 h2]. rewrite !Rmult_0_r, !Rplus_0_r. reflexivity. Qed.
Lemma hpR_0 fc r : hpR fc r (hist0 0, hist0 0) 0 = (0, (hist0 0, hist0 0)).
Proof. unfold hpR, hp_step, hp_out, hist0. cbn [h0 h1 h2]. rewrite !Rmult_0_r, !Rplus_0_r. reflexivity. Qed.
Lemma bpR_0 c : bp_stepR c (mkBPH 0 0 0 0) 0 = (0, mkBPH 0 0 0 0).
Proof. unfold bp_stepR, bp_step. cbn [bh_x1 bh_x2 bh_y1 bh_y2 a_add a_sub a_mul AR]. rewrite !Rminus_0_r, !Rmult_0_r, Rplus_0_r, Rminus_0_r. reflexivity. Qed.

Lemma near_signal_amp x eps X X' xs : X <= X' -> near_signal x eps X xs -> near_signal x eps X' xs.
Proof. intros H N j v E. destruct (N j v E) as (A & B & C). split; [exact A|]. split; [lra|exact C]. Qed.
Lemma near_signal_in x eps X xs : near_signal x eps X xs -> forall z, In z xs -> fin z /\ Rabs (B2R z) <= X.
Proof. intros N z Hz. apply In_nth_error in Hz. destruct Hz as [j Hj]. destruct (N j z Hj) as (F & A & _). exact (conj F A). Qed.
Lemma near_signal_ext x x' eps X xs : (forall j, (j < length xs)%nat -> x j = x' j) -> near_signal x eps X xs -> near_signal x' eps X xs.
Proof. intros H N j v E. rewrite <- H by (apply nth_error_Some; congruence). apply N, E. Qed.

(** the exact filters are bounded *)
Lemma lp_h_is m fc r : l_h m (LLow fc r) = response (lpR (B2R (lp_fc (lp_new m fc r))) (B2R (lp_r (lp_new m fc r)))) (hist0 0) impulse.
Proof. reflexivity. Qed.

Section Parts.
Variables (m : libm) (X : R).
Hypothesis HX : bpow radix2 (-100) <= X <= bpow radix2 90.
Lemma X0' : 0 < X. Proof. pose proof (bpow_gt_0 radix2 (-100)). lra. Qed.
Definition convolves (p : lpart) : Prop :=
  forall x eps xs, 0 <= eps -> near_signal x eps X xs ->
    exists ys p', run_res (m_step m) (l_part m p) xs = Ok (ys, p') /\ length ys = length xs /\
      near_signal (conv (l_h m p) x) (l_drift m p * X + l_gain m p * eps) ((1 + l_gain m p + l_drift m p) * X) ys.

Lemma low_convolves fc r : cos_accurate m -> pow_int_accurate m -> l_ok m (LLow fc r) -> convolves (LLow fc r).
Proof.
  intros HC HP H6. set (s := lp_new m fc r). destruct (params_ok fc r H6) as ((Ff & Bf) & (Fr & Br)).
  change (clamp_fc fc) with (lp_fc s) in Bf. change (clamp_r r) with (lp_r s) in Br. pose proof X0' as XP. intros x eps xs He N.
  assert (T : near_signal (conv (l_h m (LLow fc r)) x) (lp_drift (B2R (lp_fc s)) * X + (6 / rad (B2R (lp_fc s)) + 3) * eps) ((6 / rad (B2R (lp_fc s)) + 3 + lp_drift (B2R (lp_fc s))) * X) (fst (run lp_process s xs))).
  { apply (signal_list (lpR (B2R (lp_fc s)) (B2R (lp_r s))) hadd hsc (hist0 0)); try assumption; try lra.
    - intros. apply lp_lin. - apply hadd0. - apply lpR_0.
    - intros zs Hzs. exact (lp_tracks m fc r X zs HC HP H6 HX Hzs).
    - intros zs E E0 Hzs. exact (lowpass_stable (B2R (lp_fc s)) (B2R (lp_r s)) E zs ltac:(lra) Br E0 Hzs). }
  exists (fst (run lp_process s xs)), (MLow (snd (run lp_process s xs))). split; [apply (wrap_run lp_process MLow m); reflexivity|]. split; [apply run_len|].
  eapply near_signal_amp; [|exact T]. cbn [l_gain l_drift]. fold s. lra.
Qed.
Lemma high_convolves fc r : cos_accurate m -> pow_int_accurate m -> l_ok m (LHigh fc r) -> convolves (LHigh fc r).
Proof.
  intros HC HP H6. set (s := hp_new m fc r). destruct (params_ok fc r H6) as ((Ff & Bf) & (Fr & Br)).
  change (clamp_fc fc) with (hp_fc s) in Bf. change (clamp_r r) with (hp_r s) in Br. pose proof X0' as XP. intros x eps xs He N.
  assert (T : near_signal (conv (l_h m (LHigh fc r)) x) (hp_drift (B2R (hp_fc s)) * X + (12 / rad (B2R (hp_fc s)) + 8) * eps) ((12 / rad (B2R (hp_fc s)) + 8 + hp_drift (B2R (hp_fc s))) * X) (fst (run hp_process s xs))).
  { apply (signal_list (hpR (B2R (hp_fc s)) (B2R (hp_r s))) hadd2 hsc2 (hist0 0, hist0 0)); try assumption; try lra.
    - intros. apply hp_lin. - apply hadd20. - apply hpR_0.
    - intros zs Hzs. exact (hp_tracks m fc r X zs HC HP H6 HX Hzs).
    - intros zs E E0 Hzs y Hy. pose proof (highpass_stable (B2R (hp_fc s)) (B2R (hp_r s)) E zs ltac:(lra) Br E0 Hzs y Hy) as BB. unfold rad. unfold Rdiv in *. lra. }
  exists (fst (run hp_process s xs)), (MHigh (snd (run hp_process s xs))). split; [apply (wrap_run hp_process MHigh m); reflexivity|]. split; [apply run_len|].
  eapply near_signal_amp; [|exact T]. cbn [l_gain l_drift]. fold s. lra.
Qed.
Lemma band_convolves f q : tan_accurate m -> l_ok m (LBand f q) -> convolves (LBand f q).
Proof.
  intros HT [HL HH]. set (s := bp_new m f q) in *. destruct (audible_R _ HL) as [_ RL]. destruct (audible_R _ HH) as [_ RH].
  set (lo := B2R (fst (bp_get_corners m s))) in *. set (hi := B2R (snd (bp_get_corners m s))) in *. pose proof X0' as XP. intros x eps xs He N.
  assert (T : near_signal (conv (l_h m (LBand f q)) x) (bp_drift lo hi * X + 2 / ((1 - Rabs (pole_at lo)) * (1 - Rabs (pole_at hi))) * eps) ((2 / ((1 - Rabs (pole_at lo)) * (1 - Rabs (pole_at hi))) + bp_drift lo hi) * X) (fst (run (bp_process m) s xs))).
  { apply (signal_list (bp_stepR (bp_at lo hi)) badd bsc (mkBPH 0 0 0 0)); try assumption; try lra.
    - intros. apply bp_lin. - apply badd0. - apply bpR_0.
    - intros zs Hzs. exact (bp_tracks m f q X zs HT HL HH HX Hzs).
    - intros zs E E0 Hzs. exact (bp_at_bound lo hi E zs ltac:(lra) ltac:(lra) E0 Hzs). }
  exists (fst (run (bp_process m) s xs)), (MBand (snd (run (bp_process m) s xs))). split; [apply (wrap_run (bp_process m) MBand m); reflexivity|]. split; [apply run_len|].
  eapply near_signal_amp; [|exact T]. cbn [l_gain l_drift]. fold s. fold lo. fold hi. lra.
Qed.
Lemma pass_convolves : convolves LPass.
Proof.
  intros x eps xs He N. pose proof X0' as XP.
  pose proof (wrap_run passthrough_process (fun _ => MPass) m (fun s x => eq_refl) xs tt) as E. cbn beta in E.
  assert (F : forall xs, fst (run passthrough_process tt xs) = xs).
  { clear. induction xs as [|x r IH]; [reflexivity|]. cbn [run passthrough_process]. destruct (run passthrough_process tt r) eqn:Q. cbn [fst] in *. rewrite IH. reflexivity. }
  exists xs, MPass. rewrite F in E. split; [exact E|]. split; [reflexivity|]. intros j v Hj. destruct (N j v Hj) as (A & B & D). split; [exact A|]. cbn [l_gain l_drift l_h]. split; [lra|].
  rewrite impulse_conv. lra.
Qed.
Lemma conv_gain a x n : conv (fun n => a * impulse n) x n = a * x n.
Proof.
  rewrite conv_comm. rewrite (conv_ext _ x _ (fun i => 0 + a * impulse i) n) by (intros; ring || reflexivity). rewrite (conv_lin x (fun _ => 0) impulse a), conv_impulse.
  unfold conv. rewrite (sum_eq _ (fun _ => 0)) by (intros; ring). rewrite sum_eq_R0 by reflexivity. ring.
Qed.
Lemma gain_convolves a : l_ok m (LGain a) -> convolves (LGain a).
Proof.
  intros [Fa Ba] x eps xs He N. pose proof X0' as XP.
  pose proof (wrap_run gain_process MGain m (fun s x => eq_refl) xs a) as E.
  assert (F : forall xs, fst (run gain_process a xs) = map (fun x => fmul x a) xs).
  { clear. induction xs as [|x r IH]; [reflexivity|]. cbn [run gain_process map]. destruct (run gain_process a r) eqn:Q. cbn [fst] in *. rewrite IH. reflexivity. }
  do 2 eexists. split; [exact E|]. rewrite F. split; [apply map_length|]. intros j y Hj. rewrite nth_error_map in Hj. destruct (nth_error xs j) as [v|] eqn:Ex; [|discriminate].
  injection Hj as <-. destruct (N j v Ex) as (A & B & D). cbn [l_gain l_drift l_h]. set (g := Rabs (B2R a)) in *. assert (G0 : 0 <= g) by apply Rabs_pos.
  assert (BM : Rabs (B2R v * B2R a) <= X * g) by (rewrite Rabs_mult; fold g; apply Rmult_le_compat; try apply Rabs_pos; lra).
  assert (BM2 : Rabs (B2R v * B2R a) <= bpow radix2 120).
  { eapply Rle_trans; [exact BM|]. apply Rle_trans with (bpow radix2 90 * bpow radix2 30); [apply Rmult_le_compat; lra|]. rewrite <- bpow_plus. apply bpow_le. lia. }
  destruct (fmul_le v a (bpow radix2 120) A Fa) as (FM & RM & _).
  { apply generic_format_bpow. vm_compute. discriminate. } { apply bpow_lt. lia. } { exact BM2. }
  split; [exact FM|]. pose proof (rnd32_gen _ _ BM) as EM. rewrite <- RM in EM.
  assert (TINY : bpow radix2 (-150) <= u24 * X).
  { apply Rle_trans with (u24 * bpow radix2 (-100)); [|apply Rmult_le_compat_l; lra]. change u24 with (bpow radix2 (-24)). rewrite <- bpow_plus. apply bpow_le. lia. }
  change (bpow radix2 (-24)) with u24.
  assert (EM' : Rabs (B2R (fmul v a) - B2R v * B2R a) <= u24 * (g + 1) * X) by (eapply Rle_trans; [exact EM|]; lra).
  clear EM. split.
  - apply Rabs_le. apply Rabs_le_inv in EM'. apply Rabs_le_inv in BM. lra.
  - rewrite conv_gain.
    assert (DM : Rabs ((B2R v - x j) * B2R a) <= g * eps) by (rewrite Rabs_mult, Rmult_comm; fold g; apply Rmult_le_compat_l; assumption).
    apply Rabs_le. apply Rabs_le_inv in EM'. apply Rabs_le_inv in DM. lra.
Qed.
Lemma delay_convolves d : convolves (LDelay d).
Proof.
  intros x eps xs He N. set (n := length (delay_new d)). pose proof X0' as XP.
  destruct (delay_exact n xs) as (ys & q & E & L & _ & Y). exists ys, (MDelay q).
  assert (EQ : delay_new d = repeat f0 n) by (unfold n, delay_new, zeros; rewrite repeat_length; reflexivity).
  split; [cbn [l_part]; rewrite EQ, (wrap_res delay_process MDelay m (fun s x => eq_refl)), E; reflexivity|]. split; [exact L|].
  intros j y Hj. assert (HL : (j < length xs)%nat) by (rewrite <- L; apply nth_error_Some; congruence). rewrite (Y j HL) in Hj.
  cbn [l_gain l_drift l_h]. fold n. rewrite conv_late. destruct (Nat.ltb_spec j n) as [Hn|Hn].
  - injection Hj as <-. split; [reflexivity|]. change (B2R (f0 : f32)) with 0. rewrite Rminus_0_r, Rabs_R0. split; lra.
  - destruct (N (j - n)%nat y Hj) as (A & B & D). split; [exact A|]. split; lra.
Qed.
Lemma echo_convolves d g : l_ok m (LEcho d g) -> convolves (LEcho d g).
Proof.
  intros (NE & Fg & G1) x eps xs He N. set (n := length (e_delay (echo_new d g))). set (gf := to32 g) in *. set (G := B2R gf) in *. set (a := Rabs G) in *.
  assert (a0 : 0 <= a) by apply Rabs_pos. assert (HG := below_one gf G1). fold G a in HG.
  assert (Hn : (0 < n)%nat) by (unfold n; destruct (e_delay (echo_new d g)); [congruence|simpl; lia]).
  set (e := 1 - a) in *. assert (e0 : 0 < e <= 1) by (pose proof (bpow_gt_0 radix2 (-24)); unfold e in *; lra).
  pose proof X0' as XP.
  set (B0 := X / e). assert (BE : B0 * e = X) by (unfold B0; field; lra).
  assert (BP : X <= B0) by (assert (0 <= B0) by (unfold B0; apply Rmult_le_pos; [lra|left; apply Rinv_0_lt_compat; lra]); nra).
  assert (BU : B0 <= bpow radix2 114).
  { assert (B0 * bpow radix2 (-24) <= bpow radix2 90) by (apply Rle_trans with (B0 * e); [apply Rmult_le_compat_l; lra|lra]).
    apply Rmult_le_reg_r with (bpow radix2 (-24)); [apply bpow_gt_0|]. rewrite <- bpow_plus. exact H. }
  destruct (mag radix2 B0) as (ex & HE0). assert (HE := HE0 ltac:(lra)). rewrite Rabs_pos_eq in HE by lra. clear HE0.
  assert (E1 : (ex <= 115)%Z) by (assert (ex - 1 < 115)%Z; [apply (lt_bpow radix2); apply Rle_lt_trans with B0; [apply HE|]; apply Rle_lt_trans with (1 := BU); apply bpow_lt; lia|lia]).
  assert (E2 : (-100 < ex)%Z) by (apply (lt_bpow radix2); lra).
  destruct (power_f32 ex ltac:(lia)) as (B & FB & VB).
  assert (B2 : B2R B <= 2 * B0) by (rewrite VB; replace ex with (ex - 1 + 1)%Z by lia; rewrite bpow_plus; change (bpow radix2 1) with 2; lra).
  destruct (echo_tracks n gf X B xs Hn Fg FB) as (ys & e' & E & L & Y).
  { rewrite VB. apply bpow_le. lia. } { lra. } { exact G1. }
  { fold G a. rewrite VB. assert (B0 * e <= bpow radix2 ex * e) by (apply Rmult_le_compat_r; lra). unfold e in *. lra. }
  { exact (near_signal_in _ _ _ _ N). }
  exists ys, (MEcho e').
  assert (EQ : echo_new d g = mkEcho (repeat f0 n) gf) by (unfold n, echo_new, zeros; cbn [e_delay]; rewrite repeat_length; reflexivity).
  split; [cbn [l_part]; rewrite EQ, (wrap_res echo_process MEcho m (fun s x => eq_refl)), E; reflexivity|]. split; [exact L|].
  cbn [l_gain l_drift l_h]. fold gf G a e. fold n. change (fun n0 => if (n0 mod n =? 0)%nat then G ^ (n0 / n) else 0) with (echo_h n G). set (xr := fun i => B2R (nth i xs f0)) in *.
  assert (NX : forall i, (i < length xs)%nat -> Rabs (xr i) <= X /\ Rabs (xr i - x i) <= eps).
  { intros i Hi. destruct (N i (nth i xs f0) (List.nth_error_nth' xs f0 Hi)) as (_ & Q). exact Q. }
  assert (DB : bpow radix2 (-22) * B2R B / (1 - Rabs (B2R gf)) <= bpow radix2 (-21) / (e * e) * X).
  { fold G a e. replace (bpow radix2 (-21) / (e * e) * X) with (bpow radix2 (-22) * (2 * B0) / e).
    - apply Rmult_le_compat_r; [left; apply Rinv_0_lt_compat; lra|]. apply Rmult_le_compat_l; [apply bpow_ge_0|exact B2].
    - unfold B0. change (bpow radix2 (-21)) with (bpow radix2 (-22 + 1)). rewrite bpow_plus. change (bpow radix2 1) with 2. field. lra. }
  set (V := / e * eps) in *. assert (EX : V = eps + a * V) by (assert (V * e = eps) by (unfold V; field; lra); unfold e in *; lra).
  assert (V0 : 0 <= V) by (unfold V; apply Rmult_le_pos; [left; apply Rinv_0_lt_compat; lra|lra]).
  assert (ALL : forall k, (k < length xs)%nat -> Rabs (comb n G xr k) <= B0 /\ Rabs (comb n G xr k - comb n G x k) <= V).
  { intro k. induction k as [k IH] using lt_wf_ind. intro Hk. destruct (NX k Hk) as [A D]. destruct (Nat.lt_ge_cases k n) as [C|C].
    - rewrite !comb_small by exact C. assert (0 <= a * V) by (apply Rmult_le_pos; assumption). split; lra.
    - rewrite (comb_rec n G xr k), (comb_rec n G x k) by lia. destruct (IH (k - n)%nat ltac:(lia) ltac:(lia)) as [IA ID].
      assert (GA : Rabs (G * comb n G xr (k - n)) <= a * B0) by (rewrite Rabs_mult; apply Rmult_le_compat_l; assumption).
      assert (GD : Rabs (G * (comb n G xr (k - n) - comb n G x (k - n))) <= a * V) by (rewrite Rabs_mult; apply Rmult_le_compat_l; assumption).
      split; apply Rabs_le; [apply Rabs_le_inv in A, GA; unfold e in BE; lra|]. apply Rabs_le_inv in D, GD. lra. }
  intros j y Hj. assert (HL : (j < length xs)%nat) by (rewrite <- L; apply nth_error_Some; congruence).
  destruct (Y j HL) as [FY DY]. apply (List.nth_error_nth _ _ f0) in Hj. rewrite Hj in FY, DY. destruct (ALL j HL) as [A D].
  split; [exact FY|]. fold G in DY. assert (DY2 : Rabs (B2R y - comb n G xr j) <= bpow radix2 (-21) / (e * e) * X) by (eapply Rle_trans; [exact DY|exact DB]).
  rewrite conv_echo by exact Hn. set (dd := bpow radix2 (-21) / (e * e)) in *. assert (B0 = / e * X) by (unfold B0; field; lra).
  split; apply Rabs_le; apply Rabs_le_inv in DY2, A, D; lra.
Qed.
Lemma taps_convolves z p : l_ok m (LTaps z p) -> convolves (LTaps z p).
Proof.
  intros OK x eps xs He N. pose proof X0' as XP. destruct (taps_run z p X xs OK HX (near_signal_in _ _ _ _ N)) as (ys & s & E & L & Y). exists ys, (MGeneric s).
  split; [cbn [l_part]; rewrite (wrap_res generic_process MGeneric m (fun s x => eq_refl)), E; reflexivity|]. split; [exact L|].
  intros j y Hj. assert (HL : (j < length xs)%nat) by (rewrite <- L; apply nth_error_Some; congruence). apply (List.nth_error_nth _ _ f0) in Hj.
  destruct (Y _ (sol_solves z p _) j HL) as (F & D & M). rewrite Hj in *. cbn [l_gain l_drift l_h]. split; [exact F|]. split; [lra|].
  rewrite <- sol_conv. set (xr := fun i => B2R (nth i xs f0)) in *. destruct OK as (_ & _ & _ & Wp & _).
  assert (B : Rabs (sol z p xr j - sol z p x j) <= taps_gain z p * eps).
  { rewrite sol_minus. apply (sol_bound z p _ eps Wp He j); [|lia]. intros i Hi. assert (Hi' : (i < length xs)%nat) by lia.
    apply (N i (nth i xs f0) (List.nth_error_nth' xs f0 Hi')). }
  apply Rabs_le_inv in D, B. apply Rabs_le. lra.
Qed.
Lemma part_convolves p : cos_accurate m -> pow_int_accurate m -> tan_accurate m -> l_ok m p -> convolves p.
Proof.
  intros HC HP HT OK. destruct p as [|a|d|d g|fc r|fc r|f q|z p].
  - apply pass_convolves. - apply gain_convolves, OK. - apply delay_convolves. - apply echo_convolves, OK.
  - apply low_convolves; assumption. - apply high_convolves; assumption. - apply band_convolves; assumption. - apply taps_convolves, OK.
Qed.
End Parts.

Lemma near_signal_zero x eps X xs : near_signal x eps X xs -> near_signal x eps X (map (fadd f0) xs).
Proof.
  intros N j y E. rewrite nth_error_map in E. destruct (nth_error xs j) as [v|] eqn:Ex; [|discriminate]. injection E as <-. destruct (N j v Ex) as (A & B).
  destruct (zero_plus v A) as [FZ VZ]. split; [exact FZ|]. rewrite <- VZ in B. exact B.
Qed.
Lemma chain_convolves m ps : cos_accurate m -> pow_int_accurate m -> tan_accurate m -> (forall p, In p ps -> l_ok m p) ->
  forall x eps X xs, 0 <= eps -> bpow radix2 (-100) <= X -> chain_amp m ps X <= bpow radix2 90 -> near_signal x eps X xs ->
  exists ys, pipeline (b_prime kit kit_prime) (b_process kit (kit_process m)) (map (chain_block m) ps) xs = Ok ys /\ length ys = length xs /\
    near_signal (conv (chain_h m ps) x) (chain_err m ps eps X) (chain_amp m ps X) ys.
Proof.
  intros HC HP HT. induction ps as [|p r IH]; intros OK x eps X xs He HX HA N.
  - exists xs. split; [reflexivity|]. split; [reflexivity|]. cbn [chain_h chain_err chain_amp]. eapply near_signal_ext; [|exact N]. intros j _. symmetry. apply impulse_conv.
  - assert (OKr : forall q, In q r -> l_ok m q) by (intros q Hq; apply OK; right; exact Hq). assert (OKp := OK p (or_introl eq_refl)).
    destruct (part_grows m p OKp) as [G D]. assert (X0 : 0 < X) by (pose proof (bpow_gt_0 radix2 (-100)); lra).
    assert (XX : X <= (1 + l_gain m p + l_drift m p) * X) by nra. cbn [chain_amp] in HA.
    assert (AG := amp_grows m r OKr ((1 + l_gain m p + l_drift m p) * X) ltac:(lra)).
    destruct (part_convolves m X ltac:(lra) p HC HP HT OKp x eps (map (fadd f0) xs) He (near_signal_zero _ _ _ _ N)) as (ys & p' & E1 & L1 & N1). rewrite map_length in L1.
    destruct (IH OKr (conv (l_h m p) x) (l_drift m p * X + l_gain m p * eps) ((1 + l_gain m p + l_drift m p) * X) ys) as (zs & E2 & L2 & N2);
      [apply Rplus_le_le_0_compat; apply Rmult_le_pos; lra|lra|exact HA|exact N1|].
    exists zs. cbn [map]. rewrite pipeline_cons. unfold chain_block at 1. rewrite user_cycle, kit_modifier_filters, mod_fed, E1. cbn [outputs bind].
    split; [exact E2|]. split; [congruence|]. cbn [chain_h chain_err chain_amp]. eapply near_signal_ext; [|exact N2]. intros j _. symmetry. apply conv_assoc.
Qed.

(** ** the two kinds of sounds *)
Lemma sound_convolves m p ps gi go g calls h xs X : cos_accurate m -> pow_int_accurate m -> tan_accurate m -> (forall q, In q (p :: ps) -> l_ok m q) ->
  bpow radix2 (-100) <= X -> chain_amp m (p :: ps) X <= bpow radix2 90 ->
  NoDup (g :: added calls) -> map (get_mut kit h) (g :: added calls) = map Some (map (chain_block m) (p :: ps)) ->
  let ins := map (fun x => fmul x (to32 gi)) xs in (forall x, In x ins -> fin x /\ Rabs (B2R x) <= X) ->
  exists ys, outputs (run_res (ss_process kit kit_prime (kit_process m) (fold_left madd_step calls (ss_new gi go g))) h xs) = Ok (map (fun y => fmul y (to32 go)) ys) /\
    length ys = length xs /\ forall i y, nth_error ys i = Some y -> fin y /\
      Rabs (B2R y - conv (chain_h m (p :: ps)) (fun k => B2R (nth k ins f0)) i) <= chain_err m (p :: ps) 0 X.
Proof.
  intros HC HP HT OK HX HA ND HH ins HI.
  destruct (chain_convolves m (p :: ps) HC HP HT OK (fun k => B2R (nth k ins f0)) 0 X ins ltac:(lra) HX HA) as (ys & E & L & N).
  { intros j v Hj. destruct (HI v (nth_error_In _ _ Hj)) as [A B]. split; [exact A|]. split; [exact B|]. rewrite (nth_error_nth _ _ f0 Hj), Rminus_diag_eq, Rabs_R0 by reflexivity. lra. }
  exists ys. rewrite (sound_pipeline kit kit_prime (kit_process m) gi go g calls h (chain_block m p) (map (chain_block m) ps) xs ND HH). cbn [map] in E. unfold ins in E. rewrite E. split; [reflexivity|].
  split; [rewrite L; apply map_length|]. intros i y Hi. destruct (N i y Hi) as (A & _ & B). exact (conj A B).
Qed.

(** ** superposition, order *)
Lemma chain_err_pos m ps : (forall p, In p ps -> l_ok m p) -> forall eps X, 0 <= eps -> 0 <= X -> 0 <= chain_err m ps eps X.
Proof.
  induction ps as [|p r IH]; intros OK eps X He HX; cbn [chain_err]; [exact He|]. destruct (part_grows m p (OK p (or_introl eq_refl))) as [G D].
  apply IH; [intros q Hq; apply OK; right; exact Hq|apply Rplus_le_le_0_compat; apply Rmult_le_pos; assumption|apply Rmult_le_pos; lra].
Qed.
Definition exact_of (xs : list f32) (k : nat) : R := B2R (nth k xs f0).
Lemma near_exact xs X : (forall x, In x xs -> fin x /\ Rabs (B2R x) <= X) -> near_signal (exact_of xs) 0 X xs.
Proof.
  intros H j v Hj. destruct (H v (nth_error_In _ _ Hj)) as [A B]. split; [exact A|]. split; [exact B|]. unfold exact_of. rewrite (nth_error_nth _ _ f0 Hj), Rminus_diag_eq, Rabs_R0 by reflexivity. lra.
Qed.
Lemma chain_superposes m ps : cos_accurate m -> pow_int_accurate m -> tan_accurate m -> (forall p, In p ps -> l_ok m p) ->
  forall a b eps X xs ys zs, 0 <= eps -> bpow radix2 (-100) <= X -> chain_amp m ps X <= bpow radix2 90 ->
  (forall x, In x (xs ++ ys ++ zs) -> fin x /\ Rabs (B2R x) <= X) -> length xs = length ys -> length ys = length zs ->
  (forall i x y z, nth_error xs i = Some x -> nth_error ys i = Some y -> nth_error zs i = Some z -> Rabs (B2R z - (a * B2R x + b * B2R y)) <= eps) ->
  let thru := pipeline (b_prime kit kit_prime) (b_process kit (kit_process m)) (map (chain_block m) ps) in
  exists us vs ws, thru xs = Ok us /\ thru ys = Ok vs /\ thru zs = Ok ws /\
    forall i u v w, nth_error us i = Some u -> nth_error vs i = Some v -> nth_error ws i = Some w -> fin w /\
      Rabs (B2R w - (a * B2R u + b * B2R v)) <= chain_err m ps eps X + (Rabs a + Rabs b) * chain_err m ps 0 X.
Proof.
  intros HC HP HT OK a b eps X xs ys zs He HX HA HI L1 L2 HZ thru.
  assert (HIx : forall x, In x xs -> fin x /\ Rabs (B2R x) <= X) by (intros; apply HI, in_or_app; left; assumption).
  assert (HIy : forall x, In x ys -> fin x /\ Rabs (B2R x) <= X) by (intros; apply HI, in_or_app; right; apply in_or_app; left; assumption).
  assert (HIz : forall x, In x zs -> fin x /\ Rabs (B2R x) <= X) by (intros; apply HI, in_or_app; right; apply in_or_app; right; assumption).
  destruct (chain_convolves m ps HC HP HT OK _ 0 X xs (Rle_refl 0) HX HA (near_exact xs X HIx)) as (us & EU & LU & NU).
  destruct (chain_convolves m ps HC HP HT OK _ 0 X ys (Rle_refl 0) HX HA (near_exact ys X HIy)) as (vs & EV & LV & NV).
  assert (NZ : near_signal (fun k => (0 + a * exact_of xs k) + b * exact_of ys k) eps X zs).
  { intros j v Hj. destruct (HIz v (nth_error_In _ _ Hj)) as [A B]. split; [exact A|]. split; [exact B|].
    assert (Lj : (j < length zs)%nat) by (apply nth_error_Some; congruence). assert (Lx : (j < length xs)%nat) by lia. assert (Ly : (j < length ys)%nat) by lia.
    pose proof (HZ j (nth j xs f0) (nth j ys f0) v (List.nth_error_nth' xs f0 Lx) (List.nth_error_nth' ys f0 Ly) Hj) as Q. rewrite Rplus_0_l. exact Q. }
  destruct (chain_convolves m ps HC HP HT OK _ eps X zs He HX HA NZ) as (ws & EW & LW & NW).
  exists us, vs, ws. split; [exact EU|]. split; [exact EV|]. split; [exact EW|]. intros i u v w Hu Hv Hw.
  destruct (NU i u Hu) as (_ & _ & DU). destruct (NV i v Hv) as (_ & _ & DV). destruct (NW i w Hw) as (FW & _ & DW). split; [exact FW|].
  rewrite (conv_lin (chain_h m ps) (fun k => 0 + a * exact_of xs k) (exact_of ys) b) in DW. rewrite (conv_lin (chain_h m ps) (fun _ => 0) (exact_of xs) a) in DW.
  assert (C0 : conv (chain_h m ps) (fun _ => 0) i = 0) by (unfold conv; rewrite (sum_eq _ (fun _ => 0)) by (intros; ring); apply sum_eq_R0; reflexivity). rewrite C0 in DW.
  set (p := conv (chain_h m ps) (exact_of xs) i) in *. set (q := conv (chain_h m ps) (exact_of ys) i) in *. set (E := chain_err m ps 0 X) in *.
  assert (A1 : Rabs (a * (B2R u - p)) <= Rabs a * E) by (rewrite Rabs_mult; apply Rmult_le_compat_l; [apply Rabs_pos|exact DU]).
  assert (A2 : Rabs (b * (B2R v - q)) <= Rabs b * E) by (rewrite Rabs_mult; apply Rmult_le_compat_l; [apply Rabs_pos|exact DV]).
  apply Rabs_le. apply Rabs_le_inv in A1, A2, DW. lra.
Qed.
Lemma chain_h_order m ps qs : Permutation ps qs -> forall n, chain_h m ps n = chain_h m qs n.
Proof.
  induction 1 as [|p l l' _ IH|p q l|l l' l'' _ IH1 _ IH2]; intro n; cbn [chain_h].
  - reflexivity.
  - apply conv_ext; auto.
  - rewrite !conv_assoc. apply conv_ext; [reflexivity|]. intros k _. apply conv_comm.
  - rewrite IH1. apply IH2.
Qed.
Lemma chain_reorders m ps qs : cos_accurate m -> pow_int_accurate m -> tan_accurate m -> Permutation ps qs -> (forall p, In p ps -> l_ok m p) ->
  forall X xs, bpow radix2 (-100) <= X -> chain_amp m ps X <= bpow radix2 90 -> chain_amp m qs X <= bpow radix2 90 -> (forall x, In x xs -> fin x /\ Rabs (B2R x) <= X) ->
  exists us vs, pipeline (b_prime kit kit_prime) (b_process kit (kit_process m)) (map (chain_block m) ps) xs = Ok us /\
    pipeline (b_prime kit kit_prime) (b_process kit (kit_process m)) (map (chain_block m) qs) xs = Ok vs /\ length us = length xs /\ length vs = length xs /\
    forall i u v, nth_error us i = Some u -> nth_error vs i = Some v -> Rabs (B2R u - B2R v) <= chain_err m ps 0 X + chain_err m qs 0 X.
Proof.
  intros HC HP HT PM OK X xs HX HA HB HI.
  assert (OK' : forall p, In p qs -> l_ok m p) by (intros p Hp; apply OK; eapply Permutation_in; [symmetry; exact PM|exact Hp]).
  destruct (chain_convolves m ps HC HP HT OK _ 0 X xs (Rle_refl 0) HX HA (near_exact xs X HI)) as (us & EU & LU & NU).
  destruct (chain_convolves m qs HC HP HT OK' _ 0 X xs (Rle_refl 0) HX HB (near_exact xs X HI)) as (vs & EV & LV & NV).
  exists us, vs. split; [exact EU|]. split; [exact EV|]. split; [exact LU|]. split; [exact LV|]. intros i u v Hu Hv.
  destruct (NU i u Hu) as (_ & _ & DU). destruct (NV i v Hv) as (_ & _ & DV).
  rewrite (conv_ext (chain_h m ps) (chain_h m qs) (exact_of xs) (exact_of xs) i) in DU by (intros; try apply chain_h_order; auto).
  apply Rabs_le. apply Rabs_le_inv in DU, DV. lra.
Qed.

(** ** the frequency response is the Fourier sum of the impulse response *)
Lemma part_responds m p : l_ok m p -> responds (l_h m p) (l_H m p).
Proof.
  destruct p as [|a|d|d g|fc r|fc r|f q|z p]; intro OK.
  - apply responds_impulse.
  - apply responds_gain.
  - apply responds_late.
  - destruct OK as (NE & _ & G1). apply responds_echo; [|exact G1]. destruct (e_delay (echo_new d g)); [congruence|simpl; lia].
  - destruct (params_ok fc r OK) as ((_ & Bf) & (_ & Br)). set (s := lp_new m fc r). change (clamp_fc fc) with (lp_fc s) in Bf. change (clamp_r r) with (lp_r s) in Br.
    intros om w. destruct (lowpass_tone (B2R (lp_fc s)) (B2R (lp_r s)) om (hist0 0) w ltac:(lra) ltac:(lra)) as (K & rho & Hr & B).
    exists K, rho. split; [exact Hr|]. intro n. specialize (B n). rewrite response_out in B.
    rewrite (machine_conv (lpR (B2R (lp_fc s)) (B2R (lp_r s))) hadd hsc (hist0 0) ltac:(intros; apply lp_lin) hadd0 (lpR_0 _ _)) in B. exact B.
  - destruct (params_ok fc r OK) as ((_ & Bf) & (_ & Br)). set (s := hp_new m fc r). change (clamp_fc fc) with (hp_fc s) in Bf. change (clamp_r r) with (hp_r s) in Br.
    intros om w. destruct (highpass_tone (B2R (hp_fc s)) (B2R (hp_r s)) om (hist0 0, hist0 0) w ltac:(lra) ltac:(lra)) as (K & rho & Hr & B).
    exists K, rho. split; [exact Hr|]. intro n. specialize (B n). rewrite response_out in B.
    rewrite (machine_conv (hpR (B2R (hp_fc s)) (B2R (hp_r s))) hadd2 hsc2 (hist0 0, hist0 0) ltac:(intros; apply hp_lin) hadd20 (hpR_0 _ _)) in B. exact B.
  - destruct OK as [HL HH]. destruct (audible_R _ HL) as [_ RL]. destruct (audible_R _ HH) as [_ RH].
    set (lo := B2R (fst (bp_get_corners m (bp_new m f q)))) in *. set (hi := B2R (snd (bp_get_corners m (bp_new m f q)))) in *.
    intros om w. destruct (bp_tone lo hi om ltac:(lra) ltac:(lra) (mkBPH 0 0 0 0) w) as (K & rho & Hr & B).
    exists K, rho. split; [exact Hr|]. intro n. specialize (B n). rewrite response_out in B.
    rewrite (machine_conv (bp_stepR (bp_at lo hi)) badd bsc (mkBPH 0 0 0 0) ltac:(intros; apply bp_lin) badd0 (bpR_0 _)) in B. exact B.
  - intros om w. destruct (sol_tone z p om w 0 0 OK (Rle_refl 0) ltac:(lra) (csum w) (csum_pos w)) as (K & rho & _ & Hr & B). exists K, rho. split; [exact Hr|]. intro n.
    cbn [l_h l_H]. rewrite <- sol_conv. specialize (B 0 (tone om w) n (Rle_refl 0)). eapply Rle_trans; [apply B; [|lia]|lra].
    intros i _. split; [apply tone_csum|]. rewrite Rminus_diag_eq, Rabs_R0 by reflexivity. lra.
Qed.
Lemma chain_w_mul m ps om : forall w, chain_w m ps om w = cmul (chain_w m ps om (cre 1)) w.
Proof.
  induction ps as [|p r IH]; intro w; cbn [chain_w]; [unfold cmul, cre; destruct w; cbn [fst snd]; f_equal; ring|].
  rewrite IH. rewrite (IH (cmul (l_H m p om) (cre 1))). unfold cmul, cre. cbn [fst snd]. f_equal; ring.
Qed.
Lemma chain_responds m ps : (forall p, In p ps -> l_ok m p) -> responds (chain_h m ps) (fun om => chain_w m ps om (cre 1)).
Proof.
  induction ps as [|p r IH]; intro OK; cbn [chain_h chain_w]; [apply responds_impulse|].
  eapply responds_extH; [|apply responds_conv; [apply part_responds, OK; left; reflexivity|apply IH; intros q Hq; apply OK; right; exact Hq]].
  intro om. cbn beta. rewrite (chain_w_mul m r om (cmul _ _)). unfold cmul, cre. cbn [fst snd]. f_equal; ring.
Qed.
Lemma chain_fourier m ps om : (forall p, In p ps -> l_ok m p) ->
  settles (fun n => fst (fourier (chain_h m ps) om n)) (fun _ => fst (chain_w m ps om (cre 1))) /\
  settles (fun n => snd (fourier (chain_h m ps) om n)) (fun _ => snd (chain_w m ps om (cre 1))).
Proof. intro OK. exact (transforms_of _ _ (chain_responds m ps OK) om). Qed.
