(** * Filter parameters, clones, exact-arithmetic stability *)
From Coq Require Import ZArith List Bool Reals Lra Lia Psatz.
From Flocq Require Import Core.Core IEEE754.BinarySingleNaN.
From Verif Require Import Model.Floats Model.Utils Model.Modifiers Model.Filters Proof.FloatFacts Proof.SampleFormatP Proof.FormatsP
  Proof.UtilsP Proof.ModifiersP Proof.GenericP Proof.AdsrP.
Import ListNotations.
Local Open Scope R_scope.

(** ** C50 *)
Lemma NYQ_ok : fin NYQUIST /\ B2R NYQUIST = 24000.
Proof.
  assert (E : NYQUIST = of_Z 24000) by (apply B2SF_inj; vm_compute; reflexivity).
  rewrite E. apply of_Z64. lia.
Qed.
Lemma flt_refl {p e} (x : binary_float p e) : flt x x = false.
Proof.
  unfold flt, Bltb, SpecFloat.SFltb, SpecFloat.SFcompare. destruct x as [s|[]| |s m ex Hb]; try reflexivity.
  cbn [B2SF]. destruct s; rewrite Z.compare_refl, ?Pos.compare_cont_refl; simpl; try rewrite Pos.compare_refl; reflexivity.
Qed.
Lemma flt_not_nan {p e} (x y : binary_float p e) : flt x y = true -> is_nan x = false /\ is_nan y = false.
Proof. destruct x as [|[]| |]; destruct y as [|[]| |]; try discriminate; auto. Qed.

Lemma clamp_fc_spec (x : f64) : fle (clamp_fc x) (of_Z 24000) = true /\ clamp_fc (clamp_fc x) = clamp_fc x.
Proof.
  assert (E : NYQUIST = of_Z 24000) by (apply B2SF_inj; vm_compute; reflexivity).
  unfold clamp_fc. rewrite E. assert (N : is_nan (of_Z 24000 : f64) = false) by (vm_compute; reflexivity).
  assert (LR : fle (of_Z 24000 : f64) (of_Z 24000) = true) by (vm_compute; reflexivity).
  unfold fmin. rewrite N.
  destruct (is_nan x) eqn:NX; [rewrite N, flt_refl; auto|].
  destruct (flt x (of_Z 24000)) eqn:L.
  - rewrite NX, L. split; [|reflexivity].
    apply (flt_ext x _ NX N) in L. apply (fle_ext x _ NX N). lra.
  - rewrite N, flt_refl. auto.
Qed.
Lemma clamp_r_spec (x : f64) : fle f0 (clamp_r x) = true /\ fle (clamp_r x) (of_Z 1) = true /\ clamp_r (clamp_r x) = clamp_r x.
Proof.
  assert (N1 : is_nan (of_Z 1 : f64) = false) by (vm_compute; reflexivity).
  assert (N0 : is_nan (f0 : f64) = false) by reflexivity.
  assert (A1 : fle (f0 : f64) (of_Z 1) = true) by (vm_compute; reflexivity).
  assert (A2 : fle (of_Z 1 : f64) (of_Z 1) = true) by (vm_compute; reflexivity).
  assert (A3 : fle (f0 : f64) f0 = true) by (vm_compute; reflexivity).
  assert (B1 : flt (f0 : f64) (of_Z 1) = true) by (vm_compute; reflexivity).
  unfold clamp_r, fmin, fmax. rewrite N1, N0.
  destruct (is_nan x) eqn:NX.
  { rewrite N1, B1, N1, (flt_refl (of_Z 1)), N1, B1. auto. }
  destruct (flt x (of_Z 1)) eqn:L.
  - rewrite NX. destruct (flt f0 x) eqn:G.
    + rewrite NX, L, NX, G. split; [|split; [|reflexivity]].
      * apply (flt_ext f0 _ N0 NX) in G. apply (fle_ext f0 _ N0 NX). lra.
      * apply (flt_ext x _ NX N1) in L. apply (fle_ext x _ NX N1). lra.
    + rewrite N0, B1, N0, flt_refl. auto.
  - rewrite N1, B1, N1, (flt_refl (of_Z 1)), N1, B1. auto.
Qed.

(** histories of LowPass / HighPass calls *)
Inductive fop := SetFc (fc : f64) | SetR (r : f64) | Feed (x : f32) | CloneIt.
Definition lp_op (m : libm) (s : lowpass) (o : fop) : lowpass :=
  match o with SetFc fc => lp_set_fc m s fc | SetR r => lp_set_r m s r | Feed x => snd (lp_process s x) | CloneIt => lp_clone s end.
Definition hp_op (m : libm) (s : highpass) (o : fop) : highpass :=
  match o with SetFc fc => hp_set_fc m s fc | SetR r => hp_set_r m s r | Feed x => snd (hp_process s x) | CloneIt => hp_clone s end.

Definition in_params (fc r : f64) : Prop :=
  fle fc (of_Z 24000) = true /\ clamp_fc fc = fc /\ fle f0 r = true /\ fle r (of_Z 1) = true /\ clamp_r r = r.
Lemma in_params_clamp fc r : in_params (clamp_fc fc) (clamp_r r).
Proof. destruct (clamp_fc_spec fc) as [A B]. destruct (clamp_r_spec r) as (C & D & E). unfold in_params. auto. Qed.

Definition lp_inv m (s : lowpass) := in_params (lp_fc s) (lp_r s) /\ lp_coeff s = lp_coeffs (A64 m) to32 (lp_fc s) (lp_r s).
Lemma lp_new_inv m fc r : lp_inv m (lp_new m fc r).
Proof. split; [apply in_params_clamp|reflexivity]. Qed.
Lemma lp_op_inv m s o : lp_inv m s -> lp_inv m (lp_op m s o).
Proof.
  intros [(A & B & C & D & E) K]. destruct o as [fc|r|x|]; cbn [lp_op].
  - split; [|reflexivity]. cbn. destruct (clamp_fc_spec fc). unfold in_params. auto.
  - split; [|reflexivity]. cbn. destruct (clamp_r_spec r) as (? & ? & ?). unfold in_params. auto.
  - unfold lp_process. destruct lp_step. cbn [snd]. split; cbn [lp_fc lp_r lp_coeff]; unfold in_params; auto.
  - split; cbn [lp_clone lp_fc lp_r lp_coeff]; unfold in_params; auto.
Qed.
Lemma lp_hist m s l : lp_inv m s -> lp_inv m (fold_left (lp_op m) l s).
Proof. revert s. induction l as [|o l IH]; intros s H; [exact H|]. apply IH, lp_op_inv, H. Qed.
Lemma lp_clone_new m s : lp_inv m s -> lp_clone s = lp_new m (lp_fc s) (lp_r s).
Proof.
  intros [(A & B & C & D & E) K]. unfold lp_clone, lp_new, lp_reset. cbn [lp_fc lp_r lp_outs]. rewrite B, E, K. reflexivity.
Qed.

Definition hp_inv m (s : highpass) := in_params (hp_fc s) (hp_r s) /\ hp_coeff s = hp_coeffs (A64 m) to32 (hp_fc s) (hp_r s).
Lemma hp_new_inv m fc r : hp_inv m (hp_new m fc r).
Proof. split; [apply in_params_clamp|reflexivity]. Qed.
Lemma hp_op_inv m s o : hp_inv m s -> hp_inv m (hp_op m s o).
Proof.
  intros [(A & B & C & D & E) K]. destruct o as [fc|r|x|]; cbn [hp_op].
  - split; [|reflexivity]. cbn. destruct (clamp_fc_spec fc). unfold in_params. auto.
  - split; [|reflexivity]. cbn. destruct (clamp_r_spec r) as (? & ? & ?). unfold in_params. auto.
  - unfold hp_process. destruct hp_step. cbn [snd]. split; cbn [hp_fc hp_r hp_coeff]; unfold in_params; auto.
  - split; cbn [hp_clone hp_fc hp_r hp_coeff]; unfold in_params; auto.
Qed.
Lemma hp_hist_inv m s l : hp_inv m s -> hp_inv m (fold_left (hp_op m) l s).
Proof. revert s. induction l as [|o l IH]; intros s H; [exact H|]. apply IH, hp_op_inv, H. Qed.
Lemma hp_clone_new m s : hp_inv m s -> hp_clone s = hp_new m (hp_fc s) (hp_r s).
Proof.
  intros [(A & B & C & D & E) K]. unfold hp_clone, hp_new, hp_reset. cbn [hp_fc hp_r hp_hist]. rewrite B, E, K. reflexivity.
Qed.

Inductive bop := BSetF (f : f64) | BSetQ (q : f64) | BSetC (c : f64 * f64) | BFeed (x : f32) | BClone.
Definition bp_op (m : libm) (s : bandpass) (o : bop) : bandpass :=
  match o with
  | BSetF f => bp_set_f64 m s f | BSetQ q => bp_set_quality m s q | BSetC c => bp_set_corners m s c
  | BFeed x => snd (bp_process m s x) | BClone => bp_clone s end.
Definition bp_inv m (s : bandpass) := bp_coeff s = bp_coeffs (A64 m) (bp_f s) (bp_q s).
Lemma bp_hist_inv m l : forall s, bp_inv m s -> bp_inv m (fold_left (bp_op m) l s).
Proof.
  induction l as [|o l IH]; intros s H; [exact H|]. apply IH. destruct o; try reflexivity.
  - cbn [bp_op]. unfold bp_process. destruct bp_step. exact H.
  - exact H.
Qed.
Lemma bp_clone_new m s : bp_inv m s -> bp_clone s = bp_new m (bp_f s) (bp_q s).
Proof. intro H. unfold bp_clone, bp_new, bp_reset. cbn [bp_f bp_q bp_hist]. rewrite H. reflexivity. Qed.

(** ** Envelope, Generic, ADSR clones *)
Lemma env_params {N : num} (e e' : envelope_g N) xs ys :
  run (env_process N) e xs = (ys, e') -> en_au e' = en_au e /\ en_bu e' = en_bu e /\ en_ad e' = en_ad e /\ en_bd e' = en_bd e.
Proof.
  revert e e' ys. induction xs as [|x xs IH]; intros e e' ys H; [injection H as <- <-; auto|].
  cbn [run] in H. destruct (env_process N e x) as [y e1] eqn:E. destruct (run (env_process N) e1 xs) as [zs e2] eqn:E2.
  injection H as <- <-. apply IH in E2. unfold env_process in E. injection E as _ <-. exact E2.
Qed.
Lemma generic_len s x y s' : generic_process s x = Ok (y, s') ->
  gn_zeros s' = gn_zeros s /\ gn_poles s' = gn_poles s /\ length (gn_in s') = length (gn_in s) /\ length (gn_out s') = length (gn_out s).
Proof.
  unfold generic_process. destruct (taps (gn_zeros s) _ _) as [y1|]; cbn [bind]; [|discriminate].
  destruct (taps (gn_poles s) _ _) as [y2|]; cbn [bind]; [|discriminate]. intro H. injection H as _ <-.
  cbn [gn_zeros gn_poles gn_in gn_out]. rewrite !shift_in_length. auto.
Qed.
Lemma generic_clone_new z p xs ys s : (forall c, In c z \/ In c p -> (0 <= fst c)%Z) ->
  run_res generic_process (generic_new z p) xs = Ok (ys, s) -> generic_clone s = generic_new z p.
Proof.
  intros NN H.
  assert (K : gn_zeros s = z /\ gn_poles s = p /\ length (gn_in s) = length (zeros (back_len z)) /\ length (gn_out s) = length (zeros (back_len p))).
  { assert (G : forall s0 ys, run_res generic_process s0 xs = Ok (ys, s) ->
      gn_zeros s = gn_zeros s0 /\ gn_poles s = gn_poles s0 /\ length (gn_in s) = length (gn_in s0) /\ length (gn_out s) = length (gn_out s0)).
    { clear. induction xs as [|x xs IH]; intros s0 ys H; [injection H as _ <-; auto|]. cbn [run_res] in H.
      destruct (generic_process s0 x) as [[y s1]|] eqn:E; [|discriminate]. cbn [bind] in H.
      destruct (run_res generic_process s1 xs) as [[zs s2]|] eqn:E2; [|discriminate]. cbn [bind] in H. injection H as _ <-.
      apply IH in E2. apply generic_len in E. destruct E as (-> & -> & -> & ->) in E2. exact E2. }
    exact (G _ _ H). }
  destruct K as (Z1 & P1 & A & B). unfold generic_clone, generic_new. rewrite Z1, P1, A, B.
  rewrite !zeros_length by (apply back_len_nonneg; auto). reflexivity.
Qed.
Lemma adsr_clone_new m a d sl r h : adsr_clone (adsr_after (adsr_new m a d sl r) h) = adsr_new m a d sl r.
Proof.
  assert (G : forall e, let e' := adsr_after e h in ad_a e' = ad_a e /\ ad_d e' = ad_d e /\ ad_s e' = ad_s e /\ ad_r e' = ad_r e).
  { induction h as [|v h IH]; intro e; [cbn; auto|]. cbn [adsr_after fold_left]. fold (adsr_after (adsr_ev e v) h).
    destruct (IH (adsr_ev e v)) as (A & B & C & D). cbv zeta. rewrite A, B, C, D. destruct v as [x|]; cbn [adsr_ev]; [|cbn; auto].
    unfold adsr_process. destruct (ad_state e); cbv zeta; cbn [snd]; try destruct fge; try destruct fle; cbn; auto. }
  destruct (G (adsr_new m a d sl r)) as (A & B & C & D). cbv zeta in *. unfold adsr_clone, adsr_set. rewrite A, B, C, D. reflexivity.
Qed.

(** ** Exact arithmetic: the implicit-Euler Butterworth core *)
Section Core.
Variables t d : R.
Hypothesis Ht : 0 < t.
Hypothesis Hd : 0 <= d <= 1.
Let k := d + 1.
Let g := t ^ 3 + k * t ^ 2 + k * t + 1.
Lemma g_pos : 1 < g.
Proof. unfold g, k. assert (0 < t ^ 3) by (apply pow_lt; exact Ht). assert (0 < t ^ 2) by (apply pow_lt; exact Ht). nra. Qed.

(** one step of (y, v) -> implicit Euler with forcing (f1, f2) *)
Lemma energy_step q v q1 v1 f1 f2 F M : 0 <= F -> f1 * f1 + f2 * f2 <= F * F -> 0 <= M -> q1 * q1 + v1 * v1 <= M * M ->
  q - t * v = q1 + t * f1 -> v * (1 + t * d) + t * q = v1 + t * f2 ->
  (6 / t + 3) * F <= M -> q * q + v * v <= M * M.
Proof.
  intros HF Hf HM H1 E1 E2 HMF.
  (* |w| where w = z1 + t f *)
  assert (W : (q1 + t * f1) * (q1 + t * f1) + (v1 + t * f2) * (v1 + t * f2) <= (M + t * F) * (M + t * F)).
  { assert (C : q1 * f1 + v1 * f2 <= M * F).
    { apply Rnot_lt_le. intro C. assert (S1 : (M * F) * (M * F) < (q1 * f1 + v1 * f2) * (q1 * f1 + v1 * f2)).
      { assert (0 <= M * F) by (apply Rmult_le_pos; assumption). nra. }
      assert (S2 : (q1 * f1 + v1 * f2) * (q1 * f1 + v1 * f2) <= (q1 * q1 + v1 * v1) * (f1 * f1 + f2 * f2)).
      { pose proof (Rle_0_sqr (q1 * f2 - v1 * f1)) as Q. unfold Rsqr in Q. nra. }
      assert (S3 : (q1 * q1 + v1 * v1) * (f1 * f1 + f2 * f2) <= (M * M) * (F * F)).
      { apply Rmult_le_compat; try assumption; nra. }
      nra. }
    assert (T2 : t * t * (f1 * f1 + f2 * f2) <= t * t * (F * F)) by (apply Rmult_le_compat_l; [nra|exact Hf]).
    assert (T1 : t * (q1 * f1 + v1 * f2) <= t * (M * F)) by (apply Rmult_le_compat_l; lra). nra. }
  rewrite <- E1, <- E2 in W.
  assert (L : (1 + / 3 * (t * t)) * (q * q + v * v) <= (q - t * v) * (q - t * v) + (v * (1 + t * d) + t * q) * (v * (1 + t * d) + t * q)).
  { replace ((q - t * v) * (q - t * v) + (v * (1 + t * d) + t * q) * (v * (1 + t * d) + t * q))
      with ((q * q + v * v) + 2 * t * d * (v * v) + (t * t) * (v * v + (d * v + q) * (d * v + q))) by ring.
    assert (A1 : 0 <= t * d * (v * v)) by (apply Rmult_le_pos; [apply Rmult_le_pos; lra|nra]).
    assert (A2 : / 3 * (q * q + v * v) <= v * v + (d * v + q) * (d * v + q)).
    { (* 2/3 v^2 + 2/3 q^2 + 2 d v q + d^2 v^2 >= 0 *)
      pose proof (Rle_0_sqr (q + 3 / 2 * d * v)) as Q. unfold Rsqr in Q.
      assert (0 <= (1 - d) * (v * v)) by (apply Rmult_le_pos; [lra|nra]).
      assert (d * d <= 1) by nra. assert (0 <= (1 - d * d) * (v * v)) by (apply Rmult_le_pos; [lra|nra]). nra. }
    assert (A3 : (t * t) * (/ 3 * (q * q + v * v)) <= (t * t) * (v * v + (d * v + q) * (d * v + q))) by (apply Rmult_le_compat_l; [nra|exact A2]).
    lra. }
  assert (B : (M + t * F) * (M + t * F) <= (1 + / 3 * (t * t)) * (M * M)).
  { assert (HMt : (6 + 3 * t) * F <= M * t).
    { replace ((6 + 3 * t) * F) with ((6 / t + 3) * F * t) by (field; lra). apply Rmult_le_compat_r; lra. }
    assert (0 <= t * F) by (apply Rmult_le_pos; lra). assert (0 <= M * t) by (apply Rmult_le_pos; lra).
    (* 2 M t F + t^2 F^2 <= (Mt)^2/3 *)
    assert (C1 : t * F <= M * t) by nra.
    assert (C2 : (M * t) * ((6 + 3 * t) * F) <= (M * t) * (M * t)) by (apply Rmult_le_compat_l; assumption).
    assert (C3 : (t * F) * (t * F) <= (M * t) * (t * F)) by (apply Rmult_le_compat_r; assumption).
    nra. }
  assert (P3 : 0 < 1 + / 3 * (t * t)) by nra.
  apply Rmult_le_reg_l with (1 + / 3 * (t * t)); [exact P3|]. lra.
Qed.
End Core.

Lemma clamp_values (v : f64) : fin v ->
  B2R (clamp_fc v) = Rmin (B2R v) 24000 /\ B2R (clamp_r v) = Rmax 0 (Rmin (B2R v) 1).
Proof.
  intro F. assert (NV : is_nan v = false) by (destruct v; try discriminate; reflexivity).
  destruct NYQ_ok as [FN RN]. assert (NN : is_nan NYQUIST = false) by (vm_compute; reflexivity).
  destruct (of_Z64 1 ltac:(lia)) as [F1 R1]. assert (N1 : is_nan (of_Z 1 : f64) = false) by (vm_compute; reflexivity).
  assert (N0 : is_nan (f0 : f64) = false) by reflexivity.
  assert (F0 : fin (f0 : f64)) by reflexivity. change (B2R (f0 : f64)) with 0 in *.
  assert (B1 : flt (f0 : f64) (of_Z 1) = true) by (vm_compute; reflexivity).
  unfold clamp_fc, clamp_r, fmin, fmax. rewrite NV, NN, N1, N0. split.
  - destruct (flt v NYQUIST) eqn:L.
    + apply (flt_true v _ F FN) in L. rewrite RN in L. rewrite Rmin_left by lra. reflexivity.
    + apply (flt_false v _ F FN) in L. rewrite RN in L. rewrite Rmin_right by lra. exact RN.
  - destruct (flt v (of_Z 1)) eqn:L.
    + apply (flt_true v _ F F1) in L. rewrite R1 in L. rewrite NV, Rmin_left by lra. destruct (flt f0 v) eqn:G.
      * apply (flt_true f0 v F0 F) in G. change (B2R (f0 : f64)) with 0 in G. rewrite Rmax_right by lra. reflexivity.
      * apply (flt_false f0 v F0 F) in G. change (B2R (f0 : f64)) with 0 in G. rewrite Rmax_left by lra. reflexivity.
    + apply (flt_false v _ F F1) in L. rewrite R1 in L. rewrite N1, B1, Rmin_right by lra. rewrite Rmax_right by lra. exact R1.
Qed.
Lemma env_clone_new m lower upper xs :
  env_clone num32 (snd (run (env_process num32) (env_new m lower upper) xs)) = env_new m lower upper.
Proof.
  destruct (run (env_process num32) (env_new m lower upper) xs) as [ys e] eqn:E. apply env_params in E. destruct E as (A & B & C & D).
  unfold env_clone. cbn [snd]. rewrite A, B, C, D. reflexivity.
Qed.
