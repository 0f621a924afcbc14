(** ADSR: construction, completion of attack and release, NaN decay. *)
From Coq Require Import ZArith List Bool Lia Reals Lra Psatz.
From Flocq Require Import Core.Core IEEE754.BinarySingleNaN.
From Verif Require Import Model.Floats Model.Utils Model.Modifiers Spec.Libm
  Proof.FloatFacts Proof.SampleFormatP Proof.FormatsP Proof.UtilsP Proof.WavP Proof.ResamplerP Proof.ResamplerP3 Proof.GenericP Proof.AdsrP.
Import ListNotations.
Local Open Scope R_scope.

(** 48000 * duration, in f64 and then f32: positive and finite *)
Lemma secs_samples d : dur_ok d -> (0 < secs d \/ 0 < nanos d)%Z ->
  fin (fmul (as_secs_f64 d) SR64) /\ bpow radix2 (-15) <= B2R (fmul (as_secs_f64 d) SR64) <= bpow radix2 48 /\
  fin (to32 (fmul (as_secs_f64 d) SR64)) /\ bpow radix2 (-15) <= B2R (to32 (fmul (as_secs_f64 d) SR64)) <= bpow radix2 48 /\
  B2R (to32 (fmul (as_secs_f64 d) SR64)) = rnd32 (B2R (fmul (as_secs_f64 d) SR64)) /\
  B2R (fmul (as_secs_f64 d) SR64) = rnd64 (B2R (as_secs_f64 d) * 48000).
Proof.
  intros Hd Hp. destruct (as_secs_ok d Hd) as (A & B & C & D). destruct SR64_ok as [FS VS].
  destruct Hd as [[S1 S2] [N1 N2]]. unfold GIGA in N2.
  assert (L : bpow radix2 (-30) <= B2R (as_secs_f64 d)).
  { rewrite B. apply rnd_ge_fmt; [apply fmt64_b; lia|].
    assert (R3 : 0 <= IZR (secs d)) by (apply IZR_le; lia).
    destruct Hp as [Hp|Hp].
    - assert (1 <= IZR (secs d)) by (apply IZR_le; lia). change (bpow radix2 (-30)) with (/ 1073741824). lra.
    - assert (1 <= IZR (nanos d)) by (apply IZR_le; lia).
      assert (bpow radix2 (-30) <= rnd64 (IZR (nanos d) / 1000000000)); [|lra].
      apply rnd_ge_fmt; [apply fmt64_b; lia|]. change (bpow radix2 (-30)) with (/ 1073741824). lra. }
  change (bpow radix2 (-30)) with (/ 1073741824) in L. change (bpow radix2 32) with 4294967296 in D.
  destruct (fmul_le (as_secs_f64 d) SR64 (bpow radix2 48) A FS) as (E & G & H);
    [apply fmt64_b; lia|apply bpow_lt; lia| |].
  { rewrite VS, Rabs_pos_eq by lra. change (bpow radix2 48) with 281474976710656. lra. }
  rewrite VS in G.
  assert (L1 : bpow radix2 (-15) <= B2R (fmul (as_secs_f64 d) SR64)).
  { rewrite G. apply rnd_ge_fmt; [apply fmt64_b; lia|]. change (bpow radix2 (-15)) with (/ 32768). lra. }
  pose proof (bpow_gt_0 radix2 (-15)) as P15.
  rewrite Rabs_pos_eq in H by lra.
  destruct (fcast_le (p2:=24) (e2:=128) (fmul (as_secs_f64 d) SR64) (bpow radix2 48) E) as (T1 & T2 & T3);
    [apply fmt32_b; lia|apply bpow_lt; lia|rewrite Rabs_pos_eq by lra; exact H|].
  change (fcast 24 128 (fmul (as_secs_f64 d) SR64)) with (to32 (fmul (as_secs_f64 d) SR64)) in *.
  assert (L2 : bpow radix2 (-15) <= B2R (to32 (fmul (as_secs_f64 d) SR64))).
  { rewrite T2. apply rnd_ge_fmt; [apply fmt32_b; lia|exact L1]. }
  rewrite Rabs_pos_eq in T3 by lra. auto 10.
Qed.

Lemma fmin0 (s : f64) : s <> B754_infinity true -> fin (fmin s f0) /\ B2R (fmin s f0) <= 0.
Proof.
  intro H. unfold fmin. destruct (is_nan s) eqn:N; [split; [reflexivity|change (B2R (f0 : f64)) with 0; lra]|].
  change (is_nan (f0 : f64)) with false. cbv iota.
  destruct (flt s f0) eqn:E; [|split; [reflexivity|change (B2R (f0 : f64)) with 0; lra]].
  assert (F : fin s) by (destruct s as [b|[]| |b m e Hb]; try discriminate; try reflexivity; congruence).
  split; [exact F|]. apply (flt_true s f0 F eq_refl) in E. change (B2R (f0 : f64)) with 0 in E. lra.
Qed.

Lemma db_unit (m : libm) (s : f64) : pow10_unit m -> s <> B754_infinity true ->
  fin (db_to_linear m (fmin s f0)) /\ 0 <= B2R (db_to_linear m (fmin s f0)) <= 1.
Proof.
  intros HM Hs. destruct (fmin0 s Hs) as [F L]. destruct (of_Z64 20 ltac:(lia)) as [F20 V20].
  unfold db_to_linear, db_to_linear_g.
  assert (Q : fin (fdiv (fmin s f0) (of_Z 20)) /\ B2R (fdiv (fmin s f0) (of_Z 20)) <= 0).
  { pose proof (abs_B2R_lt (fmin s f0)) as AB.
    destruct (fdiv_ok (fmin s f0) (of_Z 20) F) as [A B].
    - rewrite V20. lra.
    - rewrite V20. eapply Rle_lt_trans; [|exact AB]. apply rnd_abs_le; [apply generic_format_abs, fmt_B2R|].
      unfold Rdiv. rewrite Rabs_mult, (Rabs_pos_eq (/ 20)) by lra. pose proof (Rabs_pos (B2R (fmin s f0))). lra.
    - split; [exact A|]. rewrite B, V20. apply rnd_nonpos. lra. }
  apply HM; [exact (proj1 Q)|exact (proj2 Q)].
Qed.

Lemma to32_nonpos (y : f64) M : fin y -> fmt32 M -> M < bpow radix2 128 -> - M <= B2R y <= 0 -> fle (to32 y) f0 = true /\ fin (to32 y) /\ B2R (to32 y) = rnd32 (B2R y).
Proof.
  intros F FM HM H.
  destruct (fcast_le (p2:=24) (e2:=128) y M F FM HM) as (T1 & T2 & _); [apply Rabs_le; lra|].
  change (fcast 24 128 y) with (to32 y) in *. split; [|auto].
  apply (fle_true (to32 y) f0 T1 eq_refl). change (B2R (f0 : f32)) with 0. rewrite T2. apply rnd_nonpos. lra.
Qed.

Lemma adsr_new_ok (m : libm) (a d r : duration) (s : f64) : pow10_unit m -> s <> B754_infinity true ->
  dur_ok a -> dur_ok d -> dur_ok r -> (0 < secs a \/ 0 < nanos a)%Z -> (0 < secs d \/ 0 < nanos d)%Z -> (0 < secs r \/ 0 < nanos r)%Z ->
  adsr_ok (adsr_new m a d s r) /\ adsr_inv (adsr_new m a d s r).
Proof.
  intros HM Hs Da Dd Dr Pa Pd Pr. split; [|apply adsr_start_inv; reflexivity].
  destruct (db_unit m s HM Hs) as [FL HL]. destruct one32 as [F1 V1]. destruct one64 as [F1' V1'].
  unfold adsr_ok, adsr_new. cbv zeta. cbn [ad_a ad_d ad_s ad_r]. set (L := db_to_linear m (fmin s f0)) in *.
  destruct (secs_samples a Da Pa) as (_ & _ & A1 & A2 & _ & _).
  destruct (secs_samples d Dd Pd) as (D1 & D2 & _ & _ & _ & _).
  destruct (secs_samples r Dr Pr) as (R1 & R2 & _ & _ & _ & _).
  pose proof (bpow_gt_0 radix2 (-15)) as P15.
  change (bpow radix2 48) with 281474976710656 in *. change (bpow radix2 (-15)) with (/ 32768) in *.
  assert (DIV : forall x y : f64, fin x -> fin y -> / 32768 <= B2R y -> -1 <= B2R x <= 0 ->
     fle (to32 (fdiv x y)) f0 = true).
  { intros x y Fx Fy Hy Hx.
    assert (Q : - 32768 <= B2R x / B2R y <= 0).
    { assert (0 < / B2R y <= 32768).
      { split; [apply Rinv_0_lt_compat; lra|]. replace 32768 with (/ / 32768) by lra. apply Rinv_le; lra. }
      unfold Rdiv. nra. }
    destruct (fdiv_le x y 32768 Fx) as (Q1 & Q2 & Q3);
      [lra|apply (fmt64_Z 32768); lia|pose proof bpow_1024_big; lra|apply Rabs_le; lra|].
    assert (QN : B2R (fdiv x y) <= 0) by (rewrite Q2; apply rnd_nonpos; lra).
    apply (to32_nonpos _ 32768 Q1); [apply (fmt32_Z 32768); lia|pose proof bpow_128_big; lra|].
    apply Rabs_le_inv in Q3. lra. }
  split; [|split; [|split; [|split]]].
  - destruct (fdiv_le (of_Z 1) (to32 (fmul (as_secs_f64 a) SR64)) 32768 F1) as (Q1 & Q2 & Q3);
      [lra|apply (fmt32_Z 32768); lia|pose proof bpow_128_big; lra| |].
    { rewrite V1. rewrite Rabs_pos_eq; [|left; apply Rdiv_lt_0_compat; lra].
      unfold Rdiv. rewrite Rmult_1_l. replace 32768 with (/ / 32768) by lra. apply Rinv_le; lra. }
    apply (flt_true f0 _ eq_refl Q1). rewrite Q2, V1. change (B2R (f0 : f32)) with 0.
    apply Rlt_le_trans with (bpow radix2 (-48)); [apply bpow_gt_0|].
    apply rnd_ge_fmt; [apply fmt32_b; lia|]. change (bpow radix2 (-48)) with (/ 281474976710656).
    unfold Rdiv. rewrite Rmult_1_l. apply Rinv_le; lra.
  - destruct (fsub_le L (of_Z 1) 1 FL F1') as (Q1 & Q2 & Q3);
      [apply (fmt64_Z 1); lia|pose proof bpow_1024_big; lra|rewrite V1'; apply Rabs_le; lra|].
    apply DIV; try assumption; [lra|]. apply Rabs_le_inv in Q3. split; [lra|]. rewrite Q2, V1'. apply rnd_nonpos. lra.
  - destruct (fcast_le (p2:=24) (e2:=128) L 1 FL) as (T1 & T2 & T3);
      [apply (fmt32_Z 1); lia|pose proof bpow_128_big; lra|apply Rabs_le; lra|].
    apply (fle_true f0 (to32 L) eq_refl T1). change (B2R (f0 : f32)) with 0.
    eapply Rle_trans; [|apply Req_le; symmetry; exact T2]. apply rnd_nonneg. lra.
  - destruct (fcast_le (p2:=24) (e2:=128) L 1 FL) as (T1 & T2 & T3);
      [apply (fmt32_Z 1); lia|pose proof bpow_128_big; lra|apply Rabs_le; lra|].
    apply (fle_true (to32 L) (of_Z 1) T1 F1). rewrite V1. apply Rabs_le_inv in T3. exact (proj2 T3).
  - apply DIV; try assumption; [rewrite fneg_fin; exact FL|lra|rewrite fneg_R; lra].
Qed.

(** ** C47: attack *)
(** f32 numbers of magnitude at least 2^e are multiples of 2^(e-23) *)
Lemma fmt32_grid x e : fmt32 x -> bpow radix2 e <= Rabs x -> exists k : Z, x = IZR k * bpow radix2 (e - 23).
Proof.
  intros F H. set (c := cexp radix2 (SpecFloat.fexp 24 128) x). set (M := Ztrunc (scaled_mantissa radix2 (SpecFloat.fexp 24 128) x)).
  assert (E : x = IZR M * bpow radix2 c) by exact F.
  assert (L : (e - 23 <= c)%Z).
  { unfold c, cexp, SpecFloat.fexp. assert (e < mag radix2 x)%Z by (apply mag_gt_bpow; exact H). lia. }
  exists (M * 2 ^ (c - (e - 23)))%Z. rewrite mult_IZR, IZR_pow2 by lia.
  rewrite Rmult_assoc, <- bpow_plus. replace (c - (e - 23) + (e - 23))%Z with c by ring. exact E.
Qed.
Lemma grid_lt k l b : 0 < b -> IZR k * b < IZR l * b -> IZR k * b + b <= IZR l * b.
Proof.
  intros B H. apply Rmult_lt_reg_r in H; [|exact B]. apply lt_IZR in H.
  assert (IZR k + 1 <= IZR l) by (rewrite <- plus_IZR; apply IZR_le; lia).
  replace (IZR k * b + b) with ((IZR k + 1) * b) by ring. apply Rmult_le_compat_r; [left; exact B|assumption].
Qed.

(** progress of the gain for a step above 2^-25 *)
Lemma attack_progress g a : fmt32 g -> 0 <= g < 1 -> bpow radix2 (-25) < a -> rnd32 (g + a) < 1 ->
  g + bpow radix2 (-26) <= rnd32 (g + a).
Proof.
  intros Fg Hg Ha H. change (bpow radix2 (-25)) with (/ 33554432) in *. change (bpow radix2 (-26)) with (/ 67108864).
  assert (A1 : g + a <= 1).
  { apply Rnot_lt_le. intro K. assert (1 <= rnd32 (g + a)); [|lra].
    apply rnd_ge_fmt; [apply (fmt32_Z 1); lia|lra]. }
  assert (FR : fmt32 (rnd32 (g + a))) by (apply generic_format_round; typeclasses eauto).
  destruct (Rle_lt_dec (/ 2) g) as [G|G].
  - assert (E : Rabs (rnd32 (g + a) - (g + a)) <= bpow radix2 (-25)).
    { apply (rnd_err (prec:=24) (emax:=128) 0); [unfold SpecFloat.emin; lia|]. simpl. rewrite Rabs_pos_eq; lra. }
    change (bpow radix2 (-25)) with (/ 33554432) in E. apply Rabs_le_inv in E.
    assert (L : g < rnd32 (g + a)) by lra.
    destruct (fmt32_grid g (-1) Fg) as [k Hk]. { simpl. rewrite Rabs_pos_eq by lra. lra. }
    destruct (fmt32_grid _ (-1) FR) as [l Hl]. { simpl. rewrite Rabs_pos_eq by lra. lra. }
    rewrite Hk in L at 1. rewrite Hl in L. apply grid_lt in L; [|apply bpow_gt_0].
    rewrite <- Hk, <- Hl in L. change (bpow radix2 (-1 - 23)) with (/ 16777216) in L. lra.
  - destruct (Rle_lt_dec (g + a) (/ 2)) as [K|K].
    + assert (E : Rabs (rnd32 (g + a) - (g + a)) <= bpow radix2 (-26)).
      { apply (rnd_err (prec:=24) (emax:=128) (-1)); [unfold SpecFloat.emin; lia|]. simpl. rewrite Rabs_pos_eq; lra. }
      change (bpow radix2 (-26)) with (/ 67108864) in E. apply Rabs_le_inv in E. lra.
    + assert (L : / 2 <= rnd32 (g + a)).
      { change (/ 2) with (bpow radix2 (-1)). apply rnd_ge_fmt; [apply fmt32_b; lia|]. simpl. lra. }
      destruct (Rle_lt_dec (/ 4) g) as [G4|G4]; [|lra].
      destruct (fmt32_grid g (-2) Fg) as [k Hk]. { simpl. rewrite Rabs_pos_eq by lra. lra. }
      assert (Q : IZR k * bpow radix2 (-2 - 23) < IZR 16777216 * bpow radix2 (-2 - 23)).
      { rewrite <- Hk. change (bpow radix2 (-2 - 23)) with (/ 33554432). lra. }
      apply grid_lt in Q; [|apply bpow_gt_0]. rewrite <- Hk in Q. change (bpow radix2 (-2 - 23)) with (/ 33554432) in Q. lra.
Qed.

Definition after_n (e : adsr) (xs : list f32) : adsr := snd (run adsr_process e xs).

Lemma after_n_S e x xs : after_n e (x :: xs) = after_n (snd (adsr_process e x)) xs.
Proof. unfold after_n. cbn. destruct (adsr_process e x) as [y e1]. cbn. destruct (run adsr_process e1 xs). reflexivity. Qed.
Lemma after_n_app e xs x : after_n e (xs ++ [x]) = snd (adsr_process (after_n e xs) x).
Proof. unfold after_n. rewrite run_app. cbn. destruct (adsr_process _ x). reflexivity. Qed.

Lemma after_n_inv e xs : adsr_ok e -> adsr_inv e -> adsr_ok (after_n e xs) /\ adsr_inv (after_n e xs) /\ same_params e (after_n e xs).
Proof.
  intros K I. induction xs as [|x xs IH] using rev_ind.
  - split; [exact K|]. split; [exact I|repeat split].
  - rewrite after_n_app. destruct IH as (K1 & I1 & P1). pose proof (adsr_step _ x K1 I1) as H.
    destruct (adsr_process (after_n e xs) x) as [y e']. cbn [snd]. destruct H as (P2 & I2 & _).
    split; [apply (adsr_params_ok _ _ P2 K1)|]. split; [exact I2|].
    destruct P1 as (A & B & C & D), P2 as (A' & B' & C' & D'). unfold same_params. rewrite A', B', C', D'. auto.
Qed.

(** generic lower bound on the gain while the attack lasts *)
Lemma attack_gain (e : adsr) (dl : R) : adsr_ok e -> adsr_inv e -> fin (ad_a e) ->
  (forall g, fmt32 g -> 0 <= g < 1 -> rnd32 (g + B2R (ad_a e)) < 1 -> g + dl <= rnd32 (g + B2R (ad_a e))) ->
  forall xs, ad_state (after_n e xs) = Attack -> INR (length xs) * dl <= B2R (ad_g (after_n e xs)) /\ B2R (ad_g (after_n e xs)) <= 1 /\ (xs <> [] -> B2R (ad_g (after_n e xs)) < 1).
Proof.
  intros K I Fa HP xs. induction xs as [|x xs IH] using rev_ind; intro S1.
  - simpl INR. destruct I as (_ & G & _). change (after_n e []) with e. split; [lra|]. split; [lra|]. intro C. elim C. reflexivity.
  - destruct (after_n_inv e xs K I) as (K1 & I1 & P1). rewrite after_n_app in *.
    set (e1 := after_n e xs) in *.
    assert (SA : ad_state e1 = Attack).
    { pose proof (adsr_step _ x K1 I1) as H. destruct (adsr_process e1 x) as [y e'] eqn:EP. cbn [snd] in *.
      destruct H as (_ & _ & NX & _). unfold next_ok in NX. destruct (ad_state e1) eqn:E1; [reflexivity| | | |];
        rewrite S1 in NX; exfalso; destruct NX as [N1 N2]; try discriminate N1; destruct N2 as [N2|[N2 _]]; discriminate N2. }
    destruct (IH SA) as (L1 & L2 & _).
    destruct I1 as (Fg & Hg & _). destruct P1 as (PA & _).
    unfold adsr_process in *. rewrite SA in *. cbv zeta in *. rewrite PA in *. cbn [snd] in *.
    destruct (fge (fadd (ad_g e1) (ad_a e)) (of_Z 1)) eqn:C; [cbn in S1; discriminate S1|].
    cbn [adsr_set ad_g].
    destruct K as (Ka & _). destruct (add_up _ _ Fg Ka) as (N & LU & EX). specialize (EX Fa).
    destruct one32 as [F1 V1].
    assert (LT : ext (fadd (ad_g e1) (ad_a e)) < 1).
    { apply Rnot_le_lt. intro K. rewrite <- V1, <- (ext_fin _ F1) in K.
      apply (fle_ext (of_Z 1) _ (not_nan_fin _ F1) N) in K. unfold fge in C. unfold fle in K. congruence. }
    destruct (small_fin _ 1 N ltac:(lra) LT b128_1) as [FH EH].
    assert (ER : B2R (fadd (ad_g e1) (ad_a e)) = rnd32 (B2R (ad_g e1) + B2R (ad_a e))).
    { rewrite EH, EX. apply sat_id. rewrite EX in LT. pose proof b128_1. unfold sat, Rmax, Rmin in LT.
      assert (P0 : 0 < B2R (ad_a e)) by (apply (flt_true f0 _ eq_refl Fa) in Ka; exact Ka).
      assert (0 <= rnd32 (B2R (ad_g e1) + B2R (ad_a e))) by (apply rnd_nonneg; lra).
      rewrite Rabs_pos_eq by assumption. repeat destruct Rle_dec; lra. }
    assert (G1 : B2R (ad_g e1) < 1) by (rewrite EH in *; lra).
    split; [|split; [rewrite EH; lra|intros _; rewrite EH; lra]].
    rewrite app_length, Nat.add_1_r, S_INR. specialize (HP (B2R (ad_g e1)) (fmt_B2R _) (conj (proj1 Hg) G1)).
    rewrite <- ER in HP. specialize (HP ltac:(rewrite EH; exact LT)). lra.
Qed.

Lemma attack_infinite e x : adsr_ok e -> adsr_inv e -> is_finite (ad_a e) = false -> ad_state e = Attack ->
  ad_state (snd (adsr_process e x)) = Decay.
Proof.
  intros (Ka & _) (Fg & _) Fa S1. unfold adsr_process. rewrite S1. cbv zeta.
  assert (E : ad_a e = B754_infinity false).
  { destruct (ad_a e) as [s|[]| |s m ex Hb]; try discriminate; reflexivity. }
  rewrite E. assert (E2 : fadd (ad_g e) (B754_infinity false) = B754_infinity false)
    by (destruct (ad_g e) as [[]|[]| |[] ? ? ?]; try discriminate; reflexivity).
  rewrite E2. reflexivity.
Qed.

(** the attack ends for every step above 2^-25, within 2^26 + 1 calls *)
Lemma attack_completes e xs : adsr_ok e -> adsr_inv e -> ad_state e = Attack ->
  (fin (ad_a e) -> bpow radix2 (-25) < B2R (ad_a e)) -> (2 ^ 26 <= Z.of_nat (length xs))%Z ->
  ad_state (after_n e xs) <> Attack.
Proof.
  intros K I S1 Ha HL C. destruct (is_finite (ad_a e)) eqn:Fa.
  - destruct (attack_gain e (bpow radix2 (-26)) K I Fa) with (xs := xs) as (L & _ & L1); [|exact C|].
    { intros g Fg Hg H. apply attack_progress; auto. }
    assert (xs <> []) as NE by (intro Z; subst; cbn in HL; lia).
    specialize (L1 NE). rewrite INR_IZR_INZ in L. apply IZR_le in HL.
    change (bpow radix2 (-26)) with (/ 67108864) in L. change (IZR (2 ^ 26)) with 67108864 in HL. lra.
  - destruct xs as [|x xs]; [cbn in HL; lia|]. rewrite after_n_S in C.
    pose proof (attack_infinite e x K I Fa S1) as D.
    assert (K1 : forall l e', ad_state e' <> Attack -> ad_state (after_n e' l) <> Attack).
    { induction l as [|z l IHl]; intros e' N; [exact N|]. rewrite after_n_S. apply IHl.
      unfold adsr_process. destruct (ad_state e') eqn:E'; [congruence| | | |]; cbv zeta; cbn;
        try (rewrite E'; discriminate); destruct (fle _ _); cbn; discriminate. }
    apply (K1 xs (snd (adsr_process e x))); [rewrite D; discriminate|exact C].
Qed.

(** faster steps: within 2/a + 1 calls *)
Lemma attack_completes_fast e xs : adsr_ok e -> adsr_inv e -> ad_state e = Attack -> fin (ad_a e) ->
  bpow radix2 (-24) <= B2R (ad_a e) -> 2 <= INR (length xs) * B2R (ad_a e) ->
  ad_state (after_n e xs) <> Attack.
Proof.
  intros K I S1 Fa Ha HL C.
  destruct (attack_gain e (B2R (ad_a e) / 2) K I Fa) with (xs := xs) as (L & _ & L1); [|exact C|].
  - intros g Fg Hg H. change (bpow radix2 (-24)) with (/ 16777216) in Ha.
    assert (A1 : g + B2R (ad_a e) <= 1).
    { apply Rnot_lt_le. intro K'. assert (1 <= rnd32 (g + B2R (ad_a e))); [|lra].
      apply rnd_ge_fmt; [apply (fmt32_Z 1); lia|lra]. }
    assert (E : Rabs (rnd32 (g + B2R (ad_a e)) - (g + B2R (ad_a e))) <= bpow radix2 (-25)).
    { apply (rnd_err (prec:=24) (emax:=128) 0); [unfold SpecFloat.emin; lia|]. simpl. rewrite Rabs_pos_eq; lra. }
    change (bpow radix2 (-25)) with (/ 33554432) in E. apply Rabs_le_inv in E. lra.
  - assert (xs <> []) as NE.
    { intro Z; subst. simpl in HL. lra. }
    specialize (L1 NE). lra.
Qed.

(** steps of at most 2^-25 stall at or below gain 1/2 *)
Lemma attack_stalls e xs : adsr_ok e -> adsr_inv e -> ad_state e = Attack -> B2R (ad_g e) <= / 2 -> fin (ad_a e) ->
  B2R (ad_a e) <= bpow radix2 (-25) ->
  ad_state (after_n e xs) = Attack /\ B2R (ad_g (after_n e xs)) <= / 2.
Proof.
  intros K I S1 G0 Fa Ha. induction xs as [|x xs IH] using rev_ind; [split; assumption|].
  rewrite after_n_app. destruct (after_n_inv e xs K I) as (K1 & I1 & P1). destruct IH as [S2 G2].
  set (e1 := after_n e xs) in *. destruct I1 as (Fg & Hg & _). destruct P1 as (PA & _).
  unfold adsr_process. rewrite S2, PA. cbv zeta. cbn [snd].
  assert (P0 : 0 < B2R (ad_a e)) by (destruct K as (Ka & _); apply (flt_true f0 _ eq_refl Fa) in Ka; exact Ka).
  assert (R1 : rnd32 (B2R (ad_g e1) + B2R (ad_a e)) <= / 2).
  { change (/ 2) with (bpow radix2 (-1)). rewrite <- (rnd_absorb (-1)) by lia. apply rnd_le.
    change (bpow radix2 (-1 - 24)) with (bpow radix2 (-25)). change (bpow radix2 (-1)) with (/ 2). lra. }
  destruct (fadd_ok (ad_g e1) (ad_a e) Fg Fa) as [A B].
  { rewrite Rabs_pos_eq by (apply rnd_nonneg; lra). pose proof b128_1. lra. }
  destruct one32 as [F1 V1].
  assert (C : fge (fadd (ad_g e1) (ad_a e)) (of_Z 1) = false).
  { apply (fge_false _ _ A F1). rewrite B, V1. lra. }
  rewrite C. cbn [adsr_set ad_state ad_g]. split; [reflexivity|]. rewrite B. exact R1.
Qed.
