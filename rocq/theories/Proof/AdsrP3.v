(** ADSR: attack in terms of durations, release, NaN decay. *)
From Coq Require Import ZArith List Bool Lia Reals Lra Psatz.
From Flocq Require Import Core.Core IEEE754.BinarySingleNaN.
From Verif Require Import Model.Floats Model.Utils Model.Modifiers Spec.Libm
  Proof.FloatFacts Proof.SampleFormatP Proof.FormatsP Proof.UtilsP Proof.WavP Proof.ResamplerP Proof.ResamplerP3 Proof.GenericP
  Proof.AdsrP Proof.AdsrP2.
Import ListNotations.
Local Open Scope R_scope.

Lemma attack_step_ok a : dur_ok a -> (0 < secs a \/ 0 < nanos a)%Z ->
  let A := fdiv (of_Z 1) (to32 (fmul (as_secs_f64 a) SR64)) in
  fin A /\ B2R A = rnd32 (/ B2R (to32 (fmul (as_secs_f64 a) SR64))).
Proof.
  intros Da Pa. destruct (secs_samples a Da Pa) as (_ & _ & A1 & A2 & _ & _). destruct one32 as [F1 V1]. cbv zeta.
  change (bpow radix2 48) with 281474976710656 in *. change (bpow radix2 (-15)) with (/ 32768) in *.
  destruct (fdiv_le (of_Z 1) (to32 (fmul (as_secs_f64 a) SR64)) 32768 F1) as (Q1 & Q2 & Q3);
    [lra|apply (fmt32_Z 32768); lia|pose proof bpow_128_big; lra| |].
  { rewrite V1. rewrite Rabs_pos_eq; [|left; apply Rdiv_lt_0_compat; lra].
    unfold Rdiv. rewrite Rmult_1_l. replace 32768 with (/ / 32768) by lra. apply Rinv_le; lra. }
  rewrite V1 in Q2. unfold Rdiv in Q2. rewrite Rmult_1_l in Q2. auto.
Qed.

(** at most 699 seconds: the step is above 2^-25; at least 700 seconds: it is not *)
Lemma attack_step_699 a : dur_ok a -> (0 < secs a \/ 0 < nanos a)%Z -> (secs a <= 698)%Z ->
  bpow radix2 (-25) < B2R (fdiv (of_Z 1) (to32 (fmul (as_secs_f64 a) SR64)) : f32).
Proof.
  intros Da Pa H. destruct (attack_step_ok a Da Pa) as [_ E]. cbv zeta in E. rewrite E.
  destruct (secs_samples a Da Pa) as (_ & _ & A1 & A2 & A3 & A4). destruct (as_secs_ok a Da) as (_ & B & C & _).
  assert (S1 : B2R (as_secs_f64 a) <= 699).
  { rewrite B. apply rnd_le_fmt; [apply (fmt64_Z 699); lia|]. apply IZR_le in H. lra. }
  assert (S2 : B2R (fmul (as_secs_f64 a) SR64) <= 33552000).
  { rewrite A4. apply rnd_le_fmt; [apply (fmt64_Z 33552000); lia|]. lra. }
  assert (S3 : B2R (to32 (fmul (as_secs_f64 a) SR64)) <= 33552000).
  { rewrite A3. apply rnd_le_fmt; [|exact S2].
    replace 33552000 with (IZR 16776000 * bpow radix2 1) by (simpl; lra). apply fmt_FLT; [lia|unfold SpecFloat.emin; lia]. }
  change (bpow radix2 48) with 281474976710656 in *. change (bpow radix2 (-15)) with (/ 32768) in *.
  apply Rlt_le_trans with (IZR 8388609 * bpow radix2 (-48)).
  { change (bpow radix2 (-48)) with (/ 281474976710656). change (bpow radix2 (-25)) with (/ 33554432). lra. }
  apply rnd_ge_fmt; [apply fmt_FLT; [lia|unfold SpecFloat.emin; lia]|].
  apply Rle_trans with (/ 33552000); [change (bpow radix2 (-48)) with (/ 281474976710656); lra|].
  apply Rinv_le; lra.
Qed.
Lemma attack_step_700 a : dur_ok a -> (700 <= secs a)%Z ->
  B2R (fdiv (of_Z 1) (to32 (fmul (as_secs_f64 a) SR64)) : f32) <= bpow radix2 (-25).
Proof.
  intros Da H. assert (Pa : (0 < secs a \/ 0 < nanos a)%Z) by lia.
  destruct (attack_step_ok a Da Pa) as [_ E]. cbv zeta in E. rewrite E.
  destruct (secs_samples a Da Pa) as (_ & _ & A1 & A2 & A3 & A4). destruct (as_secs_ok a Da) as (_ & B & C & _).
  assert (S1 : 700 <= B2R (as_secs_f64 a)).
  { rewrite B. apply rnd_ge_fmt; [apply (fmt64_Z 700); lia|]. apply IZR_le in H. lra. }
  assert (S2 : 33554432 <= B2R (fmul (as_secs_f64 a) SR64)).
  { rewrite A4. apply rnd_ge_fmt; [apply (fmt64_Z 33554432); lia|]. lra. }
  assert (S3 : 33554432 <= B2R (to32 (fmul (as_secs_f64 a) SR64))).
  { rewrite A3. apply rnd_ge_fmt; [|exact S2]. change 33554432 with (bpow radix2 25). apply fmt32_b. lia. }
  apply rnd_le_fmt; [apply fmt32_b; lia|]. change (bpow radix2 (-25)) with (/ 33554432). apply Rinv_le; lra.
Qed.

(** up to 2^22 samples: linear time *)
Lemma attack_step_linear a : dur_ok a -> (0 < secs a \/ 0 < nanos a)%Z -> 48000 * dur_R a <= 4194304 ->
  let A := fdiv (of_Z 1) (to32 (fmul (as_secs_f64 a) SR64)) : f32 in
  bpow radix2 (-24) <= B2R A /\ 2 <= (2 * (48000 * dur_R a) + 2) * B2R A.
Proof.
  intros Da Pa HT. cbv zeta. destruct (attack_step_ok a Da Pa) as [_ E]. cbv zeta in E. rewrite E.
  destruct (secs_samples a Da Pa) as (_ & _ & A1 & A2 & A3 & A4). destruct (as_secs_ok a Da) as (_ & B & C & D).
  set (as_ := B2R (as_secs_f64 a)) in *. set (q := rnd64 (IZR (nanos a) / 1000000000)) in *.
  set (t64 := B2R (fmul (as_secs_f64 a) SR64)) in *. set (t32 := B2R (to32 (fmul (as_secs_f64 a) SR64))) in *.
  destruct Da as [[S1 S2] [N1 N2]]. unfold GIGA in N2.
  assert (R1 : 0 <= IZR (nanos a)) by (apply IZR_le; lia).
  assert (R2 : IZR (nanos a) <= 999999999) by (apply IZR_le; lia).
  assert (R3 : 0 <= IZR (secs a)) by (apply IZR_le; lia).
  unfold dur_R in *.
  assert (E1 : Rabs (q - IZR (nanos a) / 1000000000) <= bpow radix2 (-54)).
  { apply (rnd_err (prec:=53) (emax:=1024) 0); [unfold SpecFloat.emin; lia|]. simpl. apply Rabs_le. lra. }
  change (bpow radix2 (-54)) with (/ 18014398509481984) in E1. apply Rabs_le_inv in E1.
  assert (E2 : Rabs (as_ - (IZR (secs a) + q)) <= bpow radix2 (-47)).
  { rewrite B. apply (rnd_err (prec:=53) (emax:=1024) 7); [unfold SpecFloat.emin; lia|].
    change (bpow radix2 7) with 128. apply Rabs_le. lra. }
  change (bpow radix2 (-47)) with (/ 140737488355328) in E2. apply Rabs_le_inv in E2.
  assert (E3 : Rabs (t64 - as_ * 48000) <= bpow radix2 (-31)).
  { rewrite A4. apply (rnd_err (prec:=53) (emax:=1024) 23); [unfold SpecFloat.emin; lia|].
    change (bpow radix2 23) with 8388608. rewrite Rabs_pos_eq by lra. lra. }
  change (bpow radix2 (-31)) with (/ 2147483648) in E3. apply Rabs_le_inv in E3.
  change (bpow radix2 48) with 281474976710656 in *. change (bpow radix2 (-15)) with (/ 32768) in *.
  set (T := 48000 * (IZR (secs a) + IZR (nanos a) / 1000000000)) in *.
  assert (E4 : t64 <= T + / 1073741824) by (unfold T; lra).
  assert (E5 : t32 <= t64 * (1 + / 16777216)).
  { assert (TL : / 65536 <= t64).
    { apply Rnot_lt_le. intro C1. assert (t32 <= bpow radix2 (-16)).
      { rewrite A3. apply rnd_le_fmt; [apply fmt32_b; lia|]. change (bpow radix2 (-16)) with (/ 65536). lra. }
      change (bpow radix2 (-16)) with (/ 65536) in *. lra. }
    destruct (rnd_rel (prec:=24) (emax:=128) t64) as (d & Hd & Ed).
    { rewrite Rabs_pos_eq by lra. apply Rle_trans with (bpow radix2 (-16)); [apply bpow_le; unfold SpecFloat.emin; lia|].
      change (bpow radix2 (-16)) with (/ 65536). lra. }
    change (bpow radix2 (- (24))) with (/ 16777216) in Hd. apply Rabs_le_inv in Hd. rewrite A3, Ed. nra. }
  assert (T0 : 0 <= T) by (unfold T; apply Rmult_le_pos; lra).
  assert (K : 2 * t32 <= (2 * T + 2) * (1 - / 16777216)) by lra.
  assert (P : 0 < / t32) by (apply Rinv_0_lt_compat; lra).
  assert (I0 : / 8388608 <= / t32) by (apply Rinv_le; lra).
  split.
  - apply rnd_ge_fmt; [apply fmt32_b; lia|]. change (bpow radix2 (-24)) with (/ 16777216). lra.
  - destruct (rnd_rel (prec:=24) (emax:=128) (/ t32)) as (d & Hd & Ed).
    { rewrite Rabs_pos_eq by lra. apply Rle_trans with (bpow radix2 (-24)); [apply bpow_le; unfold SpecFloat.emin; lia|].
      change (bpow radix2 (-24)) with (/ 16777216). lra. }
    change (bpow radix2 (- (24))) with (/ 16777216) in Hd. apply Rabs_le_inv in Hd. rewrite Ed.
    apply Rle_trans with ((2 * T + 2) * (/ t32 * (1 - / 16777216))).
    + apply Rle_trans with (2 * t32 * / t32); [right; field; lra|].
      replace ((2 * T + 2) * (/ t32 * (1 - / 16777216))) with ((2 * T + 2) * (1 - / 16777216) * / t32) by ring.
      apply Rmult_le_compat_r; [lra|exact K].
    + apply Rmult_le_compat_l; [lra|]. apply Rmult_le_compat_l; lra.
Qed.

Lemma new_attack_a m a d s r : ad_a (adsr_new m a d s r) = fdiv (of_Z 1) (to32 (fmul (as_secs_f64 a) SR64)).
Proof. reflexivity. Qed.

Definition pos_dur (d : duration) : Prop := dur_ok d /\ (0 < secs d \/ 0 < nanos d)%Z.

Lemma adsr_attack_699 m a d s r xs : pow10_unit m -> s <> B754_infinity true -> pos_dur a -> pos_dur d -> pos_dur r ->
  (secs a <= 698)%Z -> (2 ^ 26 <= Z.of_nat (length xs))%Z -> ad_state (after_n (adsr_new m a d s r) xs) <> Attack.
Proof.
  intros HM Hs [Da Pa] [Dd Pd] [Dr Pr] H L. destruct (adsr_new_ok m a d r s HM Hs Da Dd Dr Pa Pd Pr) as [K I].
  apply attack_completes; auto. intros _. rewrite new_attack_a. apply attack_step_699; assumption.
Qed.
Lemma adsr_attack_linear m a d s r xs : pow10_unit m -> s <> B754_infinity true -> pos_dur a -> pos_dur d -> pos_dur r ->
  48000 * dur_R a <= 4194304 -> 2 * (48000 * dur_R a) + 2 <= INR (length xs) ->
  ad_state (after_n (adsr_new m a d s r) xs) <> Attack.
Proof.
  intros HM Hs [Da Pa] [Dd Pd] [Dr Pr] H L. destruct (adsr_new_ok m a d r s HM Hs Da Dd Dr Pa Pd Pr) as [K I].
  destruct (attack_step_linear a Da Pa H) as [L1 L2]. destruct (attack_step_ok a Da Pa) as [F _].
  apply attack_completes_fast; auto; try (rewrite new_attack_a; exact L1); rewrite new_attack_a.
  eapply Rle_trans; [exact L2|]. apply Rmult_le_compat_r; [|exact L].
  eapply Rle_trans; [apply bpow_ge_0|exact L1].
Qed.
Lemma adsr_attack_700 m a d s r xs : pow10_unit m -> s <> B754_infinity true -> dur_ok a -> pos_dur d -> pos_dur r ->
  (700 <= secs a)%Z ->
  ad_state (after_n (adsr_new m a d s r) xs) = Attack /\ B2R (ad_g (after_n (adsr_new m a d s r) xs)) <= / 2.
Proof.
  intros HM Hs Da [Dd Pd] [Dr Pr] H. assert (Pa : (0 < secs a \/ 0 < nanos a)%Z) by lia.
  destruct (adsr_new_ok m a d r s HM Hs Da Dd Dr Pa Pd Pr) as [K I]. destruct (attack_step_ok a Da Pa) as [F _].
  apply attack_stalls; auto; [|rewrite new_attack_a; apply attack_step_700; assumption].
  cbn [adsr_new ad_g]. change (B2R (f0 : f32)) with 0. lra.
Qed.

Lemma half_bpow e : / 2 * bpow radix2 e = bpow radix2 (e - 1).
Proof. change (/ 2) with (bpow radix2 (-1)). rewrite <- bpow_plus. f_equal. ring. Qed.

Lemma sat_in x : 0 < sat (emax:=128) x -> sat (emax:=128) x < bpow radix2 128 -> sat (emax:=128) x = x.
Proof.
  unfold sat, Rmax, Rmin. pose proof (bpow_gt_0 radix2 128).
  destruct (Rle_dec (bpow radix2 128) x) as [A|A]; destruct Rle_dec; lra.
Qed.

(** ** C48, C81: the falling phases.  [fall e ph st lo]: phase, its step and its floor. *)
Definition fall (e : adsr) (ph : adsr_state) (st lo : f32) : Prop :=
  ph = Decay /\ st = ad_d e /\ lo = ad_s e \/ ph = Release /\ st = ad_r e /\ lo = f0.

Lemma fall_back e ph st lo x : fall e ph st lo -> before_rel (ad_state e) \/ after_rel (ad_state e) ->
  ad_state e <> Attack -> ad_state (snd (adsr_process e x)) = ph -> ad_state e = ph.
Proof.
  intros F B NA S1. unfold adsr_process in S1. destruct F as [(-> & _)|(-> & _)];
    destruct (ad_state e) eqn:E; try congruence; cbv zeta in S1; cbn [snd] in S1;
    try destruct fle; cbn in S1; try congruence.
Qed.
Lemma fall_not_attack e x : ad_state e <> Attack -> ad_state (snd (adsr_process e x)) <> Attack.
Proof.
  intros NA. unfold adsr_process. destruct (ad_state e) eqn:E; try congruence; cbv zeta; cbn [snd];
    try destruct fle; cbn; congruence.
Qed.
Lemma fall_params e e' ph st lo : same_params e e' -> fall e ph st lo -> fall e' ph st lo.
Proof. intros (A & B & C & D) [(-> & -> & ->)|(-> & -> & ->)]; [left|right]; auto. Qed.

Lemma fall_ok e ph st lo : adsr_ok e -> fall e ph st lo ->
  fle st f0 = true /\ fle f0 lo = true /\ fle lo (of_Z 1) = true.
Proof. intros (A & B & C & D & E) [(-> & -> & ->)|(-> & -> & ->)]; auto. Qed.

(** one call in a falling phase *)
Lemma fall_process e ph st lo x : fall e ph st lo -> ad_state e = ph ->
  adsr_process e x = let g := fadd (ad_g e) st in
    let e' := if fle g lo then adsr_set e (match ph with Decay => Sustain | _ => Stopped end) lo else adsr_set e ph g in
    (fmul x (ad_g e'), e').
Proof. intros [(-> & -> & ->)|(-> & -> & ->)] E; unfold adsr_process; rewrite E; reflexivity. Qed.

Lemma fall_gain (e : adsr) ph st lo (dl : R) : adsr_ok e -> adsr_inv e -> fall e ph st lo -> ad_state e = ph -> fin st -> 0 <= dl ->
  (forall g, fmt32 g -> 0 <= g <= B2R (ad_g e) -> 0 < g + B2R st -> rnd32 (g + B2R st) <= g - dl) ->
  forall xs, ad_state (after_n e xs) = ph ->
    B2R (ad_g (after_n e xs)) <= B2R (ad_g e) - INR (length xs) * dl /\ (xs <> [] -> 0 < B2R (ad_g (after_n e xs))).
Proof.
  intros K I F S0 Fr D0 HD xs.
  assert (NA : forall ys, ad_state (after_n e ys) <> Attack).
  { intro ys. induction ys as [|y ys IHy] using rev_ind.
    - change (ad_state e <> Attack). rewrite S0. destruct F as [(-> & _)|(-> & _)]; discriminate.
    - rewrite after_n_app. apply fall_not_attack, IHy. }
  induction xs as [|x xs IH] using rev_ind; intro S1.
  - simpl INR. change (after_n e []) with e. split; [lra|]. intro C. elim C. reflexivity.
  - destruct (after_n_inv e xs K I) as (K1 & I1 & P1). specialize (NA xs). rewrite after_n_app in *.
    set (e1 := after_n e xs) in *. pose proof (fall_params _ _ _ _ _ P1 F) as F1.
    assert (SA : ad_state e1 = ph).
    { apply (fall_back e1 ph st lo x F1); auto. destruct (ad_state e1); unfold before_rel, after_rel; auto. }
    destruct (IH SA) as (L1 & _).
    destruct I1 as (Fg & Hg & _).
    rewrite (fall_process e1 ph st lo x F1 SA) in *. cbv zeta in *. cbn [snd] in *.
    destruct (fall_ok e ph st lo K F) as (Kr & Kl & Kl1).
    destruct (fle (fadd (ad_g e1) st) lo) eqn:C.
    { destruct F as [(-> & _)|(-> & _)]; cbn in S1; discriminate S1. }
    cbn [adsr_set ad_g].
    assert (LG : B2R (ad_g e1) <= B2R (ad_g e)).
    { pose proof (pos_INR (length xs)) as PI. assert (0 <= INR (length xs) * dl) by (apply Rmult_le_pos; lra). lra. }
    destruct (add_down _ _ Fg Kr) as (N & LD & EX). specialize (EX Fr).
    destruct (fle_fin_between lo Kl Kl1) as (Fl & Hl).
    assert (GT : 0 < ext (fadd (ad_g e1) st)).
    { apply Rle_lt_trans with (B2R lo); [lra|]. apply Rnot_le_lt. intro K2. rewrite <- (ext_fin lo Fl) in K2.
      apply (fle_ext _ lo N) in K2; [congruence|]. destruct lo; try discriminate; reflexivity. }
    destruct (small_fin _ 2 N ltac:(lra) ltac:(lra)) as [FH EH].
    { change 2 with (bpow radix2 1). apply bpow_le. lia. }
    assert (ER : B2R (fadd (ad_g e1) st) = rnd32 (B2R (ad_g e1) + B2R st)).
    { rewrite EH, EX. rewrite EX in GT. rewrite EX in LD. apply sat_in; [exact GT|].
      apply Rle_lt_trans with 1; [lra|]. change 1 with (bpow radix2 0). apply bpow_lt. lia. }
    assert (SP : 0 < B2R (ad_g e1) + B2R st).
    { apply Rnot_le_lt. intro K2. apply (rnd_nonpos (prec:=24) (emax:=128)) in K2. rewrite <- ER, EH in K2. lra. }
    split; [|intros _; rewrite EH; exact GT].
    specialize (HD (B2R (ad_g e1)) (fmt_B2R _) ltac:(lra) SP). rewrite <- ER in HD.
    rewrite app_length, Nat.add_1_r, S_INR. lra.
Qed.

Lemma double_bpow e : 2 * bpow radix2 e = bpow radix2 (e + 1).
Proof. change 2 with (bpow radix2 1). rewrite <- bpow_plus. f_equal. ring. Qed.

(** progress of the gain for a step above 2^(e-25), e the binary magnitude of the gain *)
Lemma down_progress (e : Z) g a : (-100 <= e <= 0)%Z -> fmt32 g -> 0 <= g <= bpow radix2 e -> bpow radix2 (e - 25) < a -> 0 < g - a ->
  rnd32 (g - a) <= g - bpow radix2 (e - 26).
Proof.
  intros He Fg Hg Ha H.
  assert (D1 : bpow radix2 (e - 25) = 2 * bpow radix2 (e - 26)) by (rewrite double_bpow; f_equal; lia).
  assert (D2 : bpow radix2 (e - 24) = 2 * bpow radix2 (e - 25)) by (rewrite double_bpow; f_equal; lia).
  assert (D3 : bpow radix2 e = 2 * bpow radix2 (e - 1)) by (rewrite double_bpow; f_equal; lia).
  pose proof (bpow_gt_0 radix2 (e - 26)) as P.
  destruct (Rle_lt_dec g (bpow radix2 (e - 1))) as [G|G].
  - assert (E : Rabs (rnd32 (g - a) - (g - a)) <= bpow radix2 (e - 26)).
    { replace (e - 26)%Z with (e - 1 - 24 - 1)%Z by ring.
      apply (rnd_err (prec:=24) (emax:=128) (e - 1)); [unfold SpecFloat.emin; lia|]. rewrite Rabs_pos_eq; lra. }
    apply Rabs_le_inv in E. lra.
  - assert (FR : fmt32 (rnd32 (g - a))) by (apply generic_format_round; typeclasses eauto).
    destruct (fmt32_grid g (e - 1) Fg) as [k Hk]. { rewrite Rabs_pos_eq by lra. lra. }
    replace (e - 1 - 23)%Z with (e - 24)%Z in Hk by ring.
    destruct (Rle_lt_dec (g - a) (bpow radix2 (e - 1))) as [B|B].
    + assert (rnd32 (g - a) <= bpow radix2 (e - 1)) by (apply rnd_le_fmt; [apply fmt32_b; lia|exact B]).
      assert (Q : IZR (2 ^ 23) * bpow radix2 (e - 24) < IZR k * bpow radix2 (e - 24)).
      { rewrite <- Hk. change (IZR (2 ^ 23)) with (bpow radix2 23). rewrite <- bpow_plus. replace (23 + (e - 24))%Z with (e - 1)%Z by ring. exact G. }
      apply grid_lt in Q; [|apply bpow_gt_0]. rewrite <- Hk in Q.
      change (IZR (2 ^ 23)) with (bpow radix2 23) in Q. rewrite <- bpow_plus in Q. replace (23 + (e - 24))%Z with (e - 1)%Z in Q by ring. lra.
    + assert (E : Rabs (rnd32 (g - a) - (g - a)) <= bpow radix2 (e - 25)).
      { replace (e - 25)%Z with (e - 24 - 1)%Z by ring.
        apply (rnd_err (prec:=24) (emax:=128) e); [unfold SpecFloat.emin; lia|]. rewrite Rabs_pos_eq; lra. }
      apply Rabs_le_inv in E.
      assert (L : rnd32 (g - a) < g) by lra.
      destruct (fmt32_grid _ (e - 1) FR) as [l Hl].
      { rewrite Rabs_pos_eq; [|apply rnd_nonneg; lra]. apply rnd_ge_fmt; [apply fmt32_b; lia|lra]. }
      replace (e - 1 - 23)%Z with (e - 24)%Z in Hl by ring.
      rewrite Hk in L at 2. rewrite Hl in L. apply grid_lt in L; [|apply bpow_gt_0]. rewrite <- Hk, <- Hl in L. lra.
Qed.

(** above the threshold the phase ends within 2^26 calls *)
Lemma fall_completes (e : adsr) ph st lo (e0 : Z) xs : adsr_ok e -> adsr_inv e -> fall e ph st lo -> ad_state e = ph -> fin st ->
  (-100 <= e0 <= 0)%Z -> B2R (ad_g e) <= bpow radix2 e0 -> B2R st < - bpow radix2 (e0 - 25) ->
  (2 ^ 26 <= Z.of_nat (length xs))%Z -> ad_state (after_n e xs) <> ph.
Proof.
  intros K I F S0 Fr He G0 Hr HL C. pose proof (bpow_gt_0 radix2 (e0 - 26)) as P.
  destruct (fall_gain e ph st lo (bpow radix2 (e0 - 26)) K I F S0 Fr ltac:(lra)) with (xs := xs) as [L1 L2]; [|exact C|].
  { intros g Fg Hg Hp. replace (g + B2R st) with (g - - B2R st) by ring. apply down_progress; auto; lra. }
  assert (L3 : IZR (2 ^ 26) <= INR (length xs)) by (rewrite INR_IZR_INZ; apply IZR_le, HL).
  assert (L4 : IZR (2 ^ 26) * bpow radix2 (e0 - 26) <= INR (length xs) * bpow radix2 (e0 - 26)) by (apply Rmult_le_compat_r; lra).
  change (IZR (2 ^ 26)) with (bpow radix2 26) in L4 at 1. rewrite <- bpow_plus in L4. replace (26 + (e0 - 26))%Z with e0 in L4 by ring.
  assert (NE : xs <> []) by (intro E; rewrite E in HL; simpl in HL; lia).
  specialize (L2 NE). lra.
Qed.
(** from twice the threshold: time linear in gain/step *)
Lemma fall_completes_fast (e : adsr) ph st lo (e0 : Z) xs : adsr_ok e -> adsr_inv e -> fall e ph st lo -> ad_state e = ph -> fin st ->
  (-100 <= e0 <= 0)%Z -> B2R (ad_g e) <= bpow radix2 e0 -> B2R st <= - bpow radix2 (e0 - 24) -> xs <> [] ->
  2 * B2R (ad_g e) <= INR (length xs) * - B2R st -> ad_state (after_n e xs) <> ph.
Proof.
  intros K I F S0 Fr He G0 Hr NE HL C. pose proof (bpow_gt_0 radix2 (e0 - 24)) as P.
  destruct (fall_gain e ph st lo (- B2R st / 2) K I F S0 Fr ltac:(lra)) with (xs := xs) as [L1 L2]; [|exact C|specialize (L2 NE); lra].
  intros g Fg Hg Hp.
  assert (ERR : Rabs (rnd32 (g + B2R st) - (g + B2R st)) <= bpow radix2 (e0 - 24 - 1)).
  { apply (rnd_err (prec:=24) (emax:=128) e0); [unfold SpecFloat.emin; lia|]. rewrite Rabs_pos_eq; lra. }
  rewrite <- (half_bpow (e0 - 24)) in ERR. apply Rabs_le_inv in ERR. lra.
Qed.

Lemma release_infinite e x : adsr_ok e -> adsr_inv e -> is_finite (ad_r e) = false -> ad_state e = Release ->
  ad_state (snd (adsr_process e x)) = Stopped.
Proof.
  intros (_ & _ & _ & _ & Kr) (Fg & _) Fa S1. unfold adsr_process. rewrite S1. cbv zeta.
  assert (E : ad_r e = B754_infinity true).
  { destruct (ad_r e) as [s|[]| |s m ex Hb]; try discriminate; reflexivity. }
  rewrite E. assert (E2 : fadd (ad_g e) (B754_infinity true) = B754_infinity true)
    by (destruct (ad_g e) as [[]|[]| |[] ? ? ?]; try discriminate; reflexivity).
  rewrite E2. reflexivity.
Qed.

Lemma release_inv e : adsr_inv e -> adsr_inv (adsr_release e).
Proof. intros (F & G & _). unfold adsr_inv. cbn [adsr_release ad_g ad_s ad_state]. repeat split; try (exact F); try lra; discriminate. Qed.
Lemma release_not xs e : ad_state (after_n (adsr_release e) xs) <> Release -> ad_state (after_n (adsr_release e) xs) = Stopped.
Proof.
  intro N. assert (S1 : after_rel (ad_state (after_n (adsr_release e) xs))); [|destruct S1; [contradiction|assumption]].
  clear N. induction xs as [|z xs IHx] using rev_ind; [left; reflexivity|]. rewrite after_n_app. apply (proc_state _ z). exact IHx.
Qed.
Lemma release_fall e : fall (adsr_release e) Release (ad_r e) f0.
Proof. right. auto. Qed.
Lemma release_completes (e : adsr) (e0 : Z) xs : adsr_ok e -> adsr_inv e -> fin (ad_r e) ->
  (-100 <= e0 <= 0)%Z -> B2R (ad_g e) <= bpow radix2 e0 -> B2R (ad_r e) < - bpow radix2 (e0 - 25) ->
  (2 ^ 26 <= Z.of_nat (length xs))%Z -> ad_state (after_n (adsr_release e) xs) = Stopped.
Proof.
  intros K I Fr He G0 Hr HL. apply release_not. apply (fall_completes _ Release (ad_r e) f0 e0); auto using release_fall, release_inv.
Qed.
Lemma release_completes_fast (e : adsr) (e0 : Z) xs : adsr_ok e -> adsr_inv e -> fin (ad_r e) ->
  (-100 <= e0 <= 0)%Z -> B2R (ad_g e) <= bpow radix2 e0 -> B2R (ad_r e) <= - bpow radix2 (e0 - 24) ->
  xs <> [] -> 2 * B2R (ad_g e) <= INR (length xs) * - B2R (ad_r e) ->
  ad_state (after_n (adsr_release e) xs) = Stopped.
Proof.
  intros K I Fr He G0 Hr NE HL. apply release_not. apply (fall_completes_fast _ Release (ad_r e) f0 e0); auto using release_fall, release_inv.
Qed.

(** a step of at most half an ulp: the gain 2^e never moves *)
Lemma rnd_absorb_down e : (-100 <= e <= 126)%Z -> rnd32 (bpow radix2 e - bpow radix2 (e - 25)) = bpow radix2 e.
Proof.
  intro He. set (x := bpow radix2 e - bpow radix2 (e - 25)).
  assert (D : bpow radix2 (e - 1) = / 2 * bpow radix2 e) by (symmetry; apply half_bpow).
  assert (L : bpow radix2 (e - 25) < bpow radix2 (e - 1)) by (apply bpow_lt; lia).
  pose proof (bpow_gt_0 radix2 (e - 25)) as P.
  assert (Mx : mag radix2 x = e :> Z) by (apply mag_unique_pos; unfold x; lra).
  unfold round, scaled_mantissa, cexp. rewrite Mx. replace (SpecFloat.fexp 24 128 e) with (e - 24)%Z by (unfold SpecFloat.fexp, SpecFloat.emin; lia).
  assert (Sx : x * bpow radix2 (- (e - 24)) = IZR 16777215 + / 2).
  { unfold x. rewrite Rmult_minus_distr_r, <- !bpow_plus.
    replace (e + - (e - 24))%Z with 24%Z by ring. replace (e - 25 + - (e - 24))%Z with (-1)%Z by ring. simpl. lra. }
  rewrite Sx. assert (ZN : ZnearestE (IZR 16777215 + / 2) = 16777216%Z).
  { unfold Znearest. assert (F : Zfloor (IZR 16777215 + / 2) = 16777215%Z) by (apply Zfloor_imp; rewrite plus_IZR; lra).
    assert (CE : Zceil (IZR 16777215 + / 2) = 16777216%Z) by (apply Zceil_imp; change (16777216 - 1)%Z with 16777215%Z; lra).
    rewrite F, CE, Rcompare_Eq by lra. reflexivity. }
  rewrite ZN. unfold F2R. cbn [Fnum Fexp]. change (IZR 16777216) with (bpow radix2 24). rewrite <- bpow_plus. f_equal. lia.
Qed.

Lemma fall_stalls (e : adsr) ph st lo (e0 : Z) xs : adsr_ok e -> adsr_inv e -> fall e ph st lo -> ad_state e = ph -> fin st ->
  (-100 <= e0 <= 0)%Z -> B2R (ad_g e) = bpow radix2 e0 -> B2R lo < bpow radix2 e0 -> - bpow radix2 (e0 - 25) <= B2R st ->
  run adsr_process e xs = (map (fun x => fmul x (ad_g e)) xs, e).
Proof.
  intros K I F S0 Fr He G0 HLo Hr.
  destruct I as (Fg & Hg & _). pose proof (bpow_gt_0 radix2 e0) as P0.
  destruct (fall_ok e ph st lo K F) as (Kr & Kl & Kl1). destruct (fle_fin_between lo Kl Kl1) as (Fl & Hl).
  assert (R0 : B2R st <= 0) by (apply (fle_true _ f0 Fr eq_refl) in Kr; exact Kr).
  assert (RV : rnd32 (B2R (ad_g e) + B2R st) = B2R (ad_g e)).
  { rewrite G0. apply Rle_antisym.
    - apply rnd_le_fmt; [apply fmt32_b; lia|lra].
    - rewrite <- (rnd_absorb_down e0) at 1 by lia. apply rnd_le. lra. }
  destruct (fadd_ok (ad_g e) st Fg Fr) as [A B].
  { rewrite RV. apply abs_B2R_lt. }
  assert (FE : fadd (ad_g e) st = ad_g e) by (apply fin_eq; auto; rewrite B, RV; lra).
  assert (NF : fle (ad_g e) lo = false) by (apply (fle_false _ lo Fg Fl); rewrite G0; exact HLo).
  assert (SE : adsr_set e ph (ad_g e) = e) by (rewrite <- S0; destruct e; reflexivity).
  assert (ST : forall x, adsr_process e x = (fmul x (ad_g e), e)).
  { intro x. rewrite (fall_process e ph st lo x F S0). cbv zeta. rewrite FE, NF, SE. reflexivity. }
  induction xs as [|x xs IH]; [reflexivity|]. cbn [run]. rewrite ST, IH. reflexivity.
Qed.

(** ** C49: NaN decay *)
Fixpoint adsr_outs (e : adsr) (l : list ev) : list f32 :=
  match l with
  | [] => []
  | Proc x :: r => fst (adsr_process e x) :: adsr_outs (snd (adsr_process e x)) r
  | Rel :: r => adsr_outs (adsr_release e) r
  end.

Lemma fadd_nan_l (a b : f32) : is_nan a = true -> fadd a b = B754_nan.
Proof. destruct a; try discriminate. intros _. destruct b; reflexivity. Qed.
Lemma fadd_nan_r (a b : f32) : is_nan b = true -> fadd a b = B754_nan.
Proof. destruct b; try discriminate. intros _. destruct a; reflexivity. Qed.
Lemma fmul_nan_r (a b : f32) : is_nan b = true -> fmul a b = B754_nan.
Proof. destruct b; try discriminate. intros _. destruct a; reflexivity. Qed.

Lemma nan_forever e : ad_g e = B754_nan -> ad_state e = Decay \/ ad_state e = Release ->
  forall l y, In y (adsr_outs e l) -> y = B754_nan.
Proof.
  intros G S1 l. revert e G S1. induction l as [|v l IH]; intros e G S1 y Hy; [destruct Hy|].
  destruct v as [x|]; cbn [adsr_outs] in Hy.
  - assert (P : adsr_process e x = (B754_nan, adsr_set e (ad_state e) B754_nan)).
    { unfold adsr_process. destruct S1 as [S1|S1]; rewrite S1, G, fadd_nan_l by reflexivity; cbv zeta;
        (replace (fle (B754_nan : f32) _) with false by reflexivity); cbn [adsr_set ad_g];
        rewrite fmul_nan_r by reflexivity; reflexivity. }
    rewrite P in Hy. cbn [fst snd] in Hy. destruct Hy as [<-|Hy]; [reflexivity|].
    apply (IH (adsr_set e (ad_state e) B754_nan)) in Hy; auto.
  - apply (IH (adsr_release e)) in Hy; auto.
Qed.

Lemma nan_decay e x l : ad_d e = B754_nan -> ad_state e = Decay ->
  forall y, In y (adsr_outs e (Proc x :: l)) -> y = B754_nan.
Proof.
  intros D S1 y Hy. cbn [adsr_outs] in Hy.
  assert (P : adsr_process e x = (B754_nan, adsr_set e Decay B754_nan)).
  { unfold adsr_process. rewrite S1, D, fadd_nan_r by reflexivity. cbv zeta.
    replace (fle (B754_nan : f32) _) with false by reflexivity. cbn [adsr_set ad_g].
    rewrite fmul_nan_r by reflexivity. reflexivity. }
  rewrite P in Hy. cbn [fst snd] in Hy. destruct Hy as [<-|Hy]; [reflexivity|].
  apply (nan_forever (adsr_set e Decay B754_nan)) in Hy; auto.
Qed.

Lemma zero_decay_nan (m : libm) (a d r : duration) (s : f64) :
  pow64 m (of_Z 10) f0 = of_Z 1 -> fle f0 s = true -> secs d = 0%Z -> nanos d = 0%Z ->
  ad_d (adsr_new m a d s r) = B754_nan.
Proof.
  intros HM Hs D1 D2. unfold adsr_new. cbv zeta. cbn [ad_d].
  assert (E : fmin s f0 = f0).
  { unfold fmin. destruct (is_nan s) eqn:N; [reflexivity|]. change (is_nan (f0 : f64)) with false. cbv iota.
    rewrite flt_negb_fle by (auto; reflexivity). rewrite Hs. reflexivity. }
  rewrite E. unfold db_to_linear, db_to_linear_g.
  assert (E2 : fdiv f0 (of_Z 20) = (f0 : f64)) by (apply B2SF_inj; vm_compute; reflexivity).
  rewrite E2, HM. unfold as_secs_f64. rewrite D1, D2.
  apply B2SF_inj. vm_compute. reflexivity.
Qed.
