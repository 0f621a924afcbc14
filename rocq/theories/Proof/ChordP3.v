(** * A square wave through a chain of linear modifiers *)
From Coq Require Import ZArith List Bool Reals Lra Lia.
From Flocq Require Import Core.Core IEEE754.BinarySingleNaN.
From Verif Require Import Model.Floats Model.Utils Model.Generators Model.Modifiers Model.Filters Model.Sounds Model.Parts
  Spec.Libm Spec.Response Spec.Track Spec.SoundSpec Spec.Parts Spec.Chain Spec.Convolve Spec.Waves Spec.Chord
  Proof.FloatFacts Proof.FormatsP Proof.SampleFormatP Proof.SoundsP Proof.SoundsP2 Proof.SoundsP3 Proof.PartsP Proof.ChainP Proof.ChainP3 Proof.ChainP4 Proof.ConvolveP Proof.ConvolveP2 Proof.ConvolveP3 Proof.ChordP Proof.ChordP2 Proof.GeneratorsP Proof.GeneratorsP2 Proof.WavesP
  Properties.Generators.
Import ListNotations.
Local Open Scope R_scope.

Lemma nth_out_S {T} (st : T -> f32 * T) n s : nth_out st (S n) s = nth_out st n (snd (st s)).
Proof. reflexivity. Qed.
Lemma square_plays m xss : forall s, outputs (run_res (cycle kit_prime (kit_process m)) (kit_generator (GSq s)) xss) = Ok (map (fun k => nth_out sq_process k s) (seq 0 (length xss))).
Proof.
  intro s. rewrite kit_generator_plays. revert s. induction xss as [|xs r IH]; intro s; [reflexivity|]. rewrite outputs_cons. unfold gen_alone at 1. cbn [g_step].
  destruct (sq_process s) as [y s'] eqn:E. cbn [bind]. rewrite IH. cbn [bind length seq map]. unfold nth_out at 2. cbn [nsteps]. rewrite E. cbn [fst].
  rewrite <- seq_shift, map_map. do 2 f_equal. apply map_ext. intro k. rewrite nth_out_S, E. reflexivity.
Qed.
Lemma square_near q m n : (1 <= m)%nat -> (1 <= q)%Z -> (Z.of_nat m * q = 24000)%Z -> near_signal (square_wave m) 0 1 (map (fun k => nth_out sq_process k (sq_new (of_Z q))) (seq 0 n)).
Proof.
  intros Hm Hq E j v Hj. rewrite nth_error_map in Hj. destruct (nth_error (seq 0 n) j) as [k|] eqn:Ek; [|discriminate]. injection Hj as <-.
  assert (k = j) as ->. { assert (L : (j < n)%nat) by (rewrite <- (seq_length n 0); apply nth_error_Some; congruence). rewrite (nth_error_nth' _ 0%nat), seq_nth in Ek by (try rewrite seq_length; exact L). injection Ek as <-. reflexivity. }
  rewrite (C34_square_period_int (Z.of_nat m) q j) by lia. unfold square_wave.
  replace (Z.of_nat j mod (2 * Z.of_nat m) <? Z.of_nat m)%Z with (j mod (2 * m) <? m)%nat.
  2: { replace (2 * Z.of_nat m)%Z with (Z.of_nat (2 * m)) by lia. rewrite <- Nat2Z.inj_mod. destruct (Nat.ltb_spec (j mod (2 * m)) m); destruct (Z.ltb_spec (Z.of_nat (j mod (2 * m))) (Z.of_nat m)); lia || reflexivity. }
  destruct (of_Z32 1 ltac:(lia)) as [F1 V1]. destruct (of_Z32 (-1) ltac:(lia)) as [F2 V2].
  destruct (j mod (2 * m) <? m)%nat; [rewrite V1; split; [exact F1|]|rewrite V2; split; [exact F2|]]; (split; [apply Rabs_le; lra|rewrite Rminus_diag_eq, Rabs_R0 by reflexivity; lra]).
Qed.
Lemma square_flips m : (1 <= m)%nat -> repeats m (-1) (square_wave m).
Proof.
  intros Hm n. unfold square_wave. assert (L : (n mod (2 * m) < 2 * m)%nat) by (apply Nat.mod_upper_bound; lia).
  assert (E : ((n + m) mod (2 * m) = if n mod (2 * m) <? m then n mod (2 * m) + m else n mod (2 * m) - m)%nat).
  { rewrite <- Nat.add_mod_idemp_l by lia. destruct (Nat.ltb_spec (n mod (2 * m)) m) as [H|H]; [apply Nat.mod_small; lia|].
    replace (n mod (2 * m) + m)%nat with (n mod (2 * m) - m + 1 * (2 * m))%nat by lia. rewrite Nat.mod_add by lia. apply Nat.mod_small. lia. }
  rewrite E. destruct (Nat.ltb_spec (n mod (2 * m)) m) as [H|H].
  - destruct (Nat.ltb_spec (n mod (2 * m) + m) m); [lia|lra].
  - destruct (Nat.ltb_spec (n mod (2 * m) - m) m); [lra|lia].
Qed.
Lemma square_one m n : Rabs (square_wave m n) <= 1.
Proof. unfold square_wave. apply Rabs_le. destruct (_ <? _)%nat; lra. Qed.
Theorem square_sound lm q m ps gi go g calls h :
  cos_accurate lm -> pow_int_accurate lm -> tan_accurate lm -> (1 <= m)%nat -> (1 <= q)%Z -> (Z.of_nat m * q = 24000)%Z ->
  (forall p, In p ps -> l_ok lm p) -> chain_amp lm ps 1 <= bpow radix2 90 ->
  NoDup (g :: added calls) -> map (get_mut kit h) (g :: added calls) = map Some (square_block (of_Z q) :: map (chain_block lm) ps) ->
  let z := chord (chord_thru lm ps (harmonics (2 * m) (square_wave m))) in
  repeats m (-1) z /\ (forall n, Rabs (z n) <= total_gain lm ps) /\ exists K rho, 0 <= K /\ 0 <= rho < 1 /\ forall xs, exists ys,
    outputs (run_res (ss_process kit kit_prime (kit_process lm) (fold_left madd_step calls (ss_new gi go g))) h xs) = Ok (map (fun y => fmul y (to32 go)) ys) /\ length ys = length xs /\
    ends_up z (chain_err lm ps 0 1) K rho ys.
Proof.
  intros HC HP HT Hm Hq E OK HA ND HH z. assert (FL := square_flips m Hm).
  destruct (wave_passes lm ps HC HP HT OK (2 * m) (square_wave m) 1 ltac:(lia) (repeats_twice m (-1) _ ltac:(ring) FL) (square_one m)) as (_ & B & SY & K & rho & K0 & R0 & T). fold z in B, SY, T.
  split; [apply SY; [lia|ring|exact FL]|]. split; [intro n; specialize (B n); lra|]. exists K, rho. split; [exact K0|]. split; [exact R0|]. intro xs.
  assert (B1 : bpow radix2 (-100) <= 1) by (change 1 with (bpow radix2 0); apply bpow_le; lia).
  destruct (T 0 1 _ (Rle_refl 0) B1 HA (square_near q m (length xs) Hm Hq E)) as (ys & EY & LY & NY). exists ys.
  rewrite (sound_pipeline kit kit_prime (kit_process lm) gi go g calls h _ _ xs ND HH), pipeline_cons. unfold square_block. rewrite user_cycle, square_plays, !map_length. cbn [bind].
  rewrite EY. cbn [bind]. split; [reflexivity|]. split; [rewrite LY, map_length, seq_length; reflexivity|exact NY].
Qed.

(** ** waves whose second half is the first one upside down have no even harmonics *)
Lemma sum_halves (f : nat -> R) m : (1 <= m)%nat -> (forall j, f (j + m)%nat = - f j) -> sum_f_R0 f (Nat.pred (2 * m)) = 0.
Proof.
  intros Hm H. rewrite (tech2 f (Nat.pred m) (Nat.pred (2 * m))) by lia. replace (Nat.pred (2 * m) - S (Nat.pred m))%nat with (Nat.pred m) by lia.
  rewrite (sum_eq (fun i => f (S (Nat.pred m) + i)%nat) (fun i => f i * -1)) by (intros i _; replace (S (Nat.pred m) + i)%nat with (i + m)%nat by lia; rewrite H; ring). rewrite <- scal_sum. ring.
Qed.
Lemma no_even m x k : (1 <= m)%nat -> repeats m (-1) x -> snd (harmonic (2 * m) x (2 * k)) = (0, 0).
Proof.
  intros Hm H. unfold harmonic. cbn [snd]. assert (M0 : INR m <> 0) by (apply not_0_INR; lia). rewrite !mult_INR. change (INR 2) with 2.
  assert (E : forall j, 2 * PI * (2 * INR k) / (2 * INR m) * INR (j + m) = 2 * PI * (2 * INR k) / (2 * INR m) * INR j + 2 * INR k * PI) by (intro j; rewrite plus_INR; field; exact M0).
  rewrite (sum_halves (fun j => x j * cos _) m Hm), (sum_halves (fun j => x j * sin _) m Hm); [f_equal; unfold Rdiv; ring| |]; intro j; rewrite H, E.
  - rewrite sin_period. ring.
  - rewrite cos_period. ring.
Qed.

(** ** any generator that follows a repeating waveform, with an error that may grow slowly *)
Lemma wave_prefixes m ps P x A (o : nat -> f32) e0 e1 : cos_accurate m -> pow_int_accurate m -> tan_accurate m -> (forall p, In p ps -> l_ok m p) ->
  (0 < P)%nat -> repeats P 1 x -> (forall n, Rabs (x n) <= A) -> chain_amp m ps 1 <= bpow radix2 90 -> 0 <= e0 -> 0 <= e1 ->
  (forall k, fin (o k) /\ Rabs (B2R (o k)) <= 1 /\ Rabs (B2R (o k) - x k) <= e0 + INR k * e1) ->
  let z := chord (chord_thru m ps (harmonics P x)) in
  repeats P 1 z /\ (forall n, Rabs (z n) <= total_gain m ps * A) /\ (forall Q s, (0 < Q)%nat -> s * s = 1 -> repeats Q s x -> repeats Q s z) /\
  exists K rho, 0 <= K /\ 0 <= rho < 1 /\ forall n, exists ys,
    pipeline (b_prime kit kit_prime) (b_process kit (kit_process m)) (map (chain_block m) ps) (map o (seq 0 n)) = Ok ys /\ length ys = n /\
    forall i y, nth_error ys i = Some y -> fin y /\ Rabs (B2R y - z i) <= chain_err m ps (e0 + INR i * e1) 1 + K * rho ^ i.
Proof.
  intros HC HQ HT OK HP HX HA HAM E0 E1 HO z. destruct (wave_passes m ps HC HQ HT OK P x A HP HX HA) as (R1 & B & SY & K & rho & K0 & R0 & T). fold z in R1, B, SY, T.
  split; [exact R1|]. split; [exact B|]. split; [exact SY|]. exists K, rho. split; [exact K0|]. split; [exact R0|].
  assert (B1 : bpow radix2 (-100) <= 1) by (change 1 with (bpow radix2 0); apply bpow_le; lia).
  assert (EP : forall k, 0 <= e0 + INR k * e1) by (intro k; apply Rplus_le_le_0_compat; [exact E0|apply Rmult_le_pos; [apply pos_INR|exact E1]]).
  assert (N : forall n, near_signal x (e0 + INR (Nat.pred n) * e1) 1 (map o (seq 0 n))).
  { intros n j v Hj. rewrite nth_error_map in Hj. destruct (nth_error (seq 0 n) j) as [k|] eqn:Ek; [|discriminate]. injection Hj as <-.
    assert (L : (j < n)%nat) by (rewrite <- (seq_length n 0); apply nth_error_Some; congruence).
    assert (k = j) as -> by (rewrite (nth_error_nth' _ 0%nat), seq_nth in Ek by (try rewrite seq_length; exact L); injection Ek as <-; reflexivity).
    destruct (HO j) as (F & H1 & H2). split; [exact F|]. split; [exact H1|]. eapply Rle_trans; [exact H2|]. apply Rplus_le_compat_l, Rmult_le_compat_r; [exact E1|]. apply le_INR. lia. }
  intro n. destruct (T _ 1 _ (EP _) B1 HAM (N n)) as (ys & EY & LY & _). rewrite map_length, seq_length in LY. exists ys. split; [exact EY|]. split; [exact LY|].
  intros i y Hi. assert (Li : (i < n)%nat) by (rewrite <- LY; apply nth_error_Some; congruence).
  destruct (T _ 1 _ (EP _) B1 HAM (N (S i))) as (ys' & EY' & LY' & NY'). cbn [Nat.pred] in NY'.
  assert (FN : firstn (S i) (map o (seq 0 n)) = map o (seq 0 (S i))).
  { rewrite firstn_map. f_equal. replace n with (S i + (n - S i))%nat by lia. rewrite seq_app, firstn_app, seq_length, Nat.sub_diag, firstn_O, app_nil_r. apply firstn_all2. rewrite seq_length. lia. }
  rewrite <- FN, (pipeline_firstn _ _ (S i) _ _ _ EY) in EY'. injection EY' as <-. apply NY'.
  rewrite <- (firstn_skipn (S i) ys) in Hi. rewrite nth_error_app1 in Hi; [exact Hi|]. rewrite firstn_length. lia.
Qed.
Lemma tri_plays m xss : forall s, outputs (run_res (cycle kit_prime (kit_process m)) (kit_generator (GTri s)) xss) = Ok (map (fun k => nth_out tri_process k s) (seq 0 (length xss))).
Proof.
  intro s. rewrite kit_generator_plays. revert s. induction xss as [|xs r IH]; intro s; [reflexivity|]. rewrite outputs_cons. unfold gen_alone at 1. cbn [g_step].
  destruct (tri_process s) as [y s'] eqn:E. cbn [bind]. rewrite IH. cbn [bind length seq map]. unfold nth_out at 2. cbn [nsteps]. rewrite E. cbn [fst].
  rewrite <- seq_shift, map_map. do 2 f_equal. apply map_ext. intro k. rewrite nth_out_S, E. reflexivity.
Qed.
Lemma triangle_period p : triangle_wave (p + 1) = triangle_wave p.
Proof. unfold triangle_wave. do 2 f_equal. replace (2 * PI * (p + 1)) with (2 * PI * p + 2 * INR 1 * PI) by (cbn; ring). apply sin_period. Qed.
Lemma triangle_flip p : triangle_wave (p + / 2) = - triangle_wave p.
Proof. unfold triangle_wave. replace (2 * PI * (p + / 2)) with (2 * PI * p + PI) by field. rewrite neg_sin, asin_opp. ring. Qed.
Lemma triangle_repeats f P k : (0 < P)%nat -> f * INR P = 48000 * INR k -> repeats P 1 (fun n => triangle_wave (f * INR n / 48000)).
Proof.
  intros HP E n. rewrite plus_INR, Rmult_plus_distr_l, E, Rmult_1_l. replace ((f * INR n + 48000 * INR k) / 48000) with (f * INR n / 48000 + INR k) by field.
  generalize (f * INR n / 48000) as p. clear. induction k as [|k IH]; intro p; [cbn [INR]; rewrite Rplus_0_r; reflexivity|]. rewrite S_INR, <- Rplus_assoc, triangle_period. apply IH.
Qed.
Lemma triangle_flips f Q k : f * INR Q = 24000 * (2 * INR k + 1) -> repeats Q (-1) (fun n => triangle_wave (f * INR n / 48000)).
Proof.
  intros E n. rewrite plus_INR, Rmult_plus_distr_l, E. replace ((f * INR n + 24000 * (2 * INR k + 1)) / 48000) with (f * INR n / 48000 + INR k + / 2) by field.
  rewrite triangle_flip. replace (triangle_wave (f * INR n / 48000 + INR k)) with (triangle_wave (f * INR n / 48000)); [ring|].
  generalize (f * INR n / 48000) as p. clear. induction k as [|k IH]; intro p; [cbn [INR]; rewrite Rplus_0_r; reflexivity|]. rewrite S_INR, <- Rplus_assoc, triangle_period. apply IH.
Qed.
Lemma triangle_one p : Rabs (triangle_wave p) <= 1.
Proof.
  unfold triangle_wave. pose proof (asin_bound (sin (2 * PI * p))) as B. pose proof PI_RGT_0 as P0. apply Rabs_le.
  assert (I : 2 / PI * (PI / 2) = 1) by (field; lra). assert (Q : 0 < 2 / PI) by (apply Rdiv_lt_0_compat; lra). split; nra.
Qed.
Lemma tri_one n f : fin f -> Rabs (B2R f) <= 24000 -> Rabs (B2R (nth_out tri_process n (tri_new f))) <= 1.
Proof.
  intros F H. generalize (tri_new_inv f F H). generalize (tri_new f) as s. induction n as [|n IH]; intros s I.
  - destruct (tri_step s I) as (_ & _ & B & _). apply Rabs_le. exact B.
  - rewrite nth_out_S. apply IH. apply (tri_step s I).
Qed.
Theorem triangle_sound lm f P k ps gi go g calls h :
  cos_accurate lm -> pow_int_accurate lm -> tan_accurate lm -> fin f -> 0 <= B2R f <= 24000 -> (0 < P)%nat -> B2R f * INR P = 48000 * INR k ->
  (forall p, In p ps -> l_ok lm p) -> chain_amp lm ps 1 <= bpow radix2 90 ->
  NoDup (g :: added calls) -> map (get_mut kit h) (g :: added calls) = map Some (triangle_block f :: map (chain_block lm) ps) ->
  let x := fun n => triangle_wave (B2R f * INR n / 48000) in let z := chord (chord_thru lm ps (harmonics P x)) in
  repeats P 1 z /\ (forall n, Rabs (z n) <= total_gain lm ps) /\ (forall Q j, (0 < Q)%nat -> B2R f * INR Q = 24000 * (2 * INR j + 1) -> repeats Q (-1) z) /\
  exists K rho, 0 <= K /\ 0 <= rho < 1 /\ forall xs, exists ys,
    outputs (run_res (ss_process kit kit_prime (kit_process lm) (fold_left madd_step calls (ss_new gi go g))) h xs) = Ok (map (fun y => fmul y (to32 go)) ys) /\ length ys = length xs /\
    forall i y, nth_error ys i = Some y -> fin y /\ Rabs (B2R y - z i) <= chain_err lm ps (bpow radix2 (-25) + INR i * bpow radix2 (-50)) 1 + K * rho ^ i.
Proof.
  intros HC HQ HT F H HP E OK HA ND HH x z.
  assert (HO : forall j, fin (nth_out tri_process j (tri_new f)) /\ Rabs (B2R (nth_out tri_process j (tri_new f))) <= 1 /\ Rabs (B2R (nth_out tri_process j (tri_new f)) - x j) <= bpow radix2 (-25) + INR j * bpow radix2 (-50)).
  { intro j. destruct (triangle_accuracy j f F ltac:(rewrite Rabs_pos_eq; lra)) as [A B]. split; [exact A|]. split; [|exact B]. apply tri_one; [exact F|rewrite Rabs_pos_eq; lra]. }
  destruct (wave_prefixes lm ps P x 1 _ _ _ HC HQ HT OK HP (triangle_repeats _ P k HP E) (fun n => triangle_one _) HA (bpow_ge_0 _ _) (bpow_ge_0 _ _) HO) as (R1 & B & SY & K & rho & K0 & R0 & T). fold z in R1, B, SY, T.
  split; [exact R1|]. split; [intro n; specialize (B n); lra|]. split; [intros Q j Q0 EQ; apply SY; [exact Q0|ring|apply (triangle_flips _ Q j EQ)]|].
  exists K, rho. split; [exact K0|]. split; [exact R0|]. intro xs. destruct (T (length xs)) as (ys & EY & LY & NY). exists ys.
  rewrite (sound_pipeline kit kit_prime (kit_process lm) gi go g calls h _ _ xs ND HH), pipeline_cons. unfold triangle_block. rewrite user_cycle, tri_plays, !map_length. cbn [bind].
  rewrite EY. cbn [bind]. split; [reflexivity|]. split; [exact LY|exact NY].
Qed.
