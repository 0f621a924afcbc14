(** * The harmonics of a waveform through a chain of linear modifiers *)
From Coq Require Import ZArith List Bool Reals Lra Lia.
From Flocq Require Import Core.Core IEEE754.BinarySingleNaN.
From Verif Require Import Model.Floats Model.Utils Model.Generators Model.Modifiers Model.Filters Model.Sounds Model.Parts
  Spec.Libm Spec.Response Spec.Track Spec.SoundSpec Spec.Parts Spec.Chain Spec.Convolve Spec.Chord
  Proof.FloatFacts Proof.FormatsP Proof.SampleFormatP Proof.SoundsP Proof.SoundsP2 Proof.SoundsP3 Proof.PartsP Proof.ChainP Proof.ChainP3 Proof.ChainP4 Proof.ConvolveP Proof.ConvolveP2 Proof.ConvolveP3 Proof.ChordP.
Import ListNotations.
Local Open Scope R_scope.

(** ** sums of cosines *)
Lemma dirichlet th p : 2 * sin (th / 2) * sum_f_R0 (fun k => cos (th * INR k)) p = sin (th * INR p + th / 2) + sin (th / 2).
Proof.
  induction p as [|p IH].
  - cbn [sum_f_R0 INR]. rewrite !Rmult_0_r, cos_0, Rplus_0_l. ring.
  - cbn [sum_f_R0]. rewrite Rmult_plus_distr_l, IH. rewrite S_INR. set (a := th * INR p). replace (th * (INR p + 1)) with (a + th) by (unfold a; ring).
    replace (a + th / 2) with (a + th - th / 2) by field. set (b := a + th). set (c := th / 2). rewrite sin_minus, sin_plus. ring.
Qed.
Lemma cos_sum_zero p d : (0 < d < S p)%nat -> sum_f_R0 (fun k => cos (2 * PI * INR d / INR (S p) * INR k)) p = 0.
Proof.
  intro H. set (th := 2 * PI * INR d / INR (S p)). assert (P0 : 0 < INR (S p)) by (apply lt_0_INR; lia). assert (D0 : 0 < INR d) by (apply lt_0_INR; lia). assert (D1 : INR d < INR (S p)) by (apply lt_INR; lia).
  pose proof PI_RGT_0. assert (T : th / 2 = PI * (INR d / INR (S p))) by (unfold th; field; lra).
  assert (Q : 0 < INR d / INR (S p) < 1) by (split; [apply Rdiv_lt_0_compat; lra|apply Rmult_lt_reg_r with (INR (S p)); [lra|]; unfold Rdiv; rewrite Rmult_assoc, Rinv_l; lra]).
  assert (S1 : 0 < sin (th / 2)) by (rewrite T; apply sin_gt_0; nra).
  pose proof (dirichlet th p) as D. replace (th * INR p + th / 2) with (- (th / 2) + 2 * INR d * PI) in D by (unfold th; rewrite S_INR; field; rewrite <- S_INR; lra).
  rewrite sin_period, sin_neg in D. assert (E : 2 * sin (th / 2) * sum_f_R0 (fun k => cos (th * INR k)) p = 0) by lra. apply Rmult_integral in E. destruct E; [lra|assumption].
Qed.
Lemma sum_swap (f : nat -> nat -> R) p q : sum_f_R0 (fun k => sum_f_R0 (f k) q) p = sum_f_R0 (fun j => sum_f_R0 (fun k => f k j) p) q.
Proof. induction p as [|p IH]; cbn [sum_f_R0]; [reflexivity|]. rewrite IH, <- plus_sum. reflexivity. Qed.
Lemma sum_single (f : nat -> R) n p : (n <= p)%nat -> (forall j, (j <= p)%nat -> j <> n -> f j = 0) -> sum_f_R0 f p = f n.
Proof.
  induction p as [|p IH]; intros Hn H; [replace n with 0%nat by lia; reflexivity|]. cbn [sum_f_R0]. destruct (Nat.eq_dec n (S p)) as [-> | N].
  - rewrite (sum_eq f (fun _ => 0)) by (intros i Hi; apply H; lia). rewrite sum_cte. ring.
  - rewrite IH by (try lia; intros j Hj Hjn; apply H; lia). rewrite (H (S p)) by lia. ring.
Qed.
Lemma chord_seq g p n : chord (map g (seq 0 (S p))) n = sum_f_R0 (fun k => tone (fst (g k)) (snd (g k)) n) p.
Proof.
  assert (A : forall l t, chord (l ++ [t]) n = chord l n + tone (fst t) (snd t) n) by (induction l as [|u l IH]; intro t; unfold chord in *; cbn [app fold_right]; [ring|rewrite IH; ring]).
  induction p as [|p IH]; [unfold chord; cbn [seq map fold_right sum_f_R0]; ring|]. rewrite seq_S, map_app. cbn [map sum_f_R0]. rewrite A, IH. reflexivity.
Qed.
Lemma harmonic_tone p x k n : let om := 2 * PI * INR k / INR (S p) in
  tone om (snd (harmonic (S p) x k)) n = sum_f_R0 (fun j => x j * cos (om * (INR n - INR j)) / INR (S p)) p.
Proof.
  intro om. assert (P0 : INR (S p) <> 0) by (apply not_0_INR; lia). unfold tone, harmonic. cbn [fst snd Nat.pred]. fold om.
  rewrite (sum_eq (fun j => x j * cos (om * (INR n - INR j)) / INR (S p)) (fun j => x j * cos (om * INR j) * (cos (om * INR n) / INR (S p)) + x j * sin (om * INR j) * (sin (om * INR n) / INR (S p)))).
  2: { intros j _. rewrite Rmult_minus_distr_l, cos_minus. field. exact P0. }
  rewrite plus_sum, <- !scal_sum. field. exact P0.
Qed.
Lemma repeat_mod P x n : (0 < P)%nat -> repeats P 1 x -> x n = x (n mod P)%nat.
Proof.
  intros HP H. rewrite (Nat.div_mod n P) at 1 by lia. rewrite Nat.add_comm, Nat.mul_comm. generalize (n mod P)%nat as r. induction (n / P)%nat as [|q IH]; intro r; [cbn [Nat.mul]; rewrite Nat.add_0_r; reflexivity|].
  replace (r + S q * P)%nat with (r + q * P + P)%nat by (cbn [Nat.mul]; lia). rewrite H, IH. ring.
Qed.
Lemma harmonics_repeat P ts : (0 < P)%nat -> (forall t, In t ts -> exists k, fst t = 2 * PI * INR k / INR P) -> repeats P 1 (chord ts).
Proof.
  intros HP H n. rewrite Rmult_1_l. assert (P0 : INR P <> 0) by (apply not_0_INR; lia). induction ts as [|[om w] ts IH]; [reflexivity|]. unfold chord in *. cbn [fold_right fst snd]. rewrite IH by (intros t Ht; apply H; right; exact Ht).
  f_equal. destruct (H (om, w) (or_introl eq_refl)) as [k E]. cbn [fst] in E. subst om. unfold tone. rewrite plus_INR.
  replace (2 * PI * INR k / INR P * (INR n + INR P)) with (2 * PI * INR k / INR P * INR n + 2 * INR k * PI) by (field; exact P0). rewrite cos_period, sin_period. reflexivity.
Qed.
Lemma chord_repeats P x (f : R * C -> C) : (0 < P)%nat -> repeats P 1 (chord (map (fun t => (fst t, f t)) (harmonics P x))).
Proof.
  intro HP. apply harmonics_repeat; [exact HP|]. intros t Ht. apply in_map_iff in Ht. destruct Ht as (u & <- & Hu). apply in_map_iff in Hu. destruct Hu as (k & <- & _). exists k. reflexivity.
Qed.
Lemma harmonics_sum P x : (0 < P)%nat -> repeats P 1 x -> forall n, x n = chord (harmonics P x) n.
Proof.
  intros HP H n. assert (HR : repeats P 1 (chord (harmonics P x))).
  { pose proof (chord_repeats P x snd HP) as Q. rewrite (map_ext _ (fun t => t)), map_id in Q by (intros [? ?]; reflexivity). exact Q. }
  rewrite (repeat_mod P x n HP H), (repeat_mod P _ n HP HR). assert (L : (n mod P < P)%nat) by (apply Nat.mod_upper_bound; lia). revert L. generalize (n mod P)%nat as r. clear n HR.
  destruct P as [|p]; [lia|]. intros n L. unfold harmonics. rewrite chord_seq. assert (P0 : INR (S p) <> 0) by (apply not_0_INR; lia).
  rewrite (sum_eq _ (fun k => sum_f_R0 (fun j => x j * cos (2 * PI * INR k / INR (S p) * (INR n - INR j)) / INR (S p)) p)) by (intros k _; apply harmonic_tone).
  rewrite sum_swap, (sum_single _ n p); [|lia|].
  - rewrite Rminus_diag_eq by reflexivity. rewrite (sum_eq _ (fun _ => x n / INR (S p))) by (intros k _; rewrite Rmult_0_r, cos_0; field; exact P0). rewrite sum_cte. field. exact P0.
  - intros j Hj N. set (d := if (j <? n)%nat then (n - j)%nat else (j - n)%nat). assert (Hd : (0 < d < S p)%nat) by (unfold d; destruct (Nat.ltb_spec j n); lia).
    rewrite (sum_eq _ (fun k => cos (2 * PI * INR d / INR (S p) * INR k) * (x j / INR (S p)))).
    + rewrite <- scal_sum, (cos_sum_zero p d Hd). ring.
    + intros k _. replace (cos (2 * PI * INR k / INR (S p) * (INR n - INR j))) with (cos (2 * PI * INR d / INR (S p) * INR k)); [field; exact P0|].
      unfold d. destruct (Nat.ltb_spec j n); [rewrite minus_INR by lia; f_equal; field; exact P0|].
      rewrite minus_INR by lia. rewrite <- cos_neg. f_equal. field. exact P0.
Qed.

(** ** what dies out and repeats is zero *)
Lemma repeats_zero Q d K rho : (0 < Q)%nat -> repeats Q 1 d -> 0 <= rho < 1 -> (forall n, Rabs (d n) <= K * rho ^ n) -> forall n, d n = 0.
Proof.
  intros HQ HR Hr HB n. destruct (Req_dec (d n) 0) as [E | N]; [exact E|exfalso]. assert (A0 : 0 < Rabs (d n)) by (apply Rabs_pos_lt, N).
  assert (K0 : 0 < K). { specialize (HB n). assert (0 <= rho ^ n <= 1) by (split; [apply pow_le; lra|rewrite <- (pow1 n); apply pow_incr; lra]). destruct (Rle_lt_dec K 0); [exfalso; nra|assumption]. }
  destruct (pow_lt_1_zero rho ltac:(rewrite Rabs_pos_eq; lra) (Rabs (d n) / K) ltac:(apply Rdiv_lt_0_compat; lra)) as [M HM].
  assert (E : d (n + M * Q)%nat = d n). { clear -HR. induction M as [|M IH]; [cbn [Nat.mul]; rewrite Nat.add_0_r; reflexivity|]. replace (n + S M * Q)%nat with (n + M * Q + Q)%nat by (cbn [Nat.mul]; lia). rewrite HR, IH. ring. }
  specialize (HM (n + M * Q)%nat ltac:(nia)). specialize (HB (n + M * Q)%nat). rewrite E in HB. rewrite Rabs_pos_eq in HM by (apply pow_le; lra).
  apply (Rmult_lt_compat_l K) in HM; [|exact K0]. replace (K * (Rabs (d n) / K)) with (Rabs (d n)) in HM by (field; lra). lra.
Qed.
Lemma repeats_twice P s x : s * s = 1 -> repeats P s x -> repeats (2 * P) 1 x.
Proof. intros HS H n. replace (n + 2 * P)%nat with (n + P + P)%nat by lia. rewrite H, H, <- Rmult_assoc, HS. reflexivity. Qed.
Lemma repeats_times P x j : repeats P 1 x -> repeats (j * P) 1 x.
Proof. intros H n. induction j as [|j IH]; [cbn [Nat.mul]; rewrite Nat.add_0_r; ring|]. replace (n + S j * P)%nat with (n + j * P + P)%nat by (cbn [Nat.mul]; lia). rewrite H, IH. ring. Qed.
Lemma settles_unique y z z' P Q : (0 < P)%nat -> (0 < Q)%nat -> repeats P 1 z -> repeats Q 1 z' -> settles y z -> settles y z' -> forall n, z n = z' n.
Proof.
  intros HP HQ RZ RZ' S1 S2 n. assert (T : settles z z').
  { eapply settles_le; [apply (settles_sum _ _ _ _ S2 S1)|]. intro k. cbn beta. replace (z k - z' k) with ((y k - z' k) + - (y k - z k)) by ring. eapply Rle_trans; [apply Rabs_triang|]. rewrite Rabs_Ropp. lra. }
  destruct (settles_K _ _ T) as (K & rho & _ & R0 & B). apply Rminus_diag_uniq. apply (repeats_zero (Q * P) (fun k => z k - z' k) K rho); [nia| |exact R0|exact B].
  intro k. rewrite (repeats_times P z Q RZ k), (Nat.mul_comm Q P), (repeats_times Q z' P RZ' k). ring.
Qed.

(** ** waveforms through a chain *)
Lemma steady_exists m ps P s x A : (forall p, In p ps -> l_ok m p) -> (0 < P)%nat -> s * s = 1 -> repeats P s x -> (forall n, Rabs (x n) <= A) ->
  exists z, repeats P s z /\ (forall n, Rabs (z n) <= total_gain m ps * A) /\ settles (conv (chain_h m ps) x) z.
Proof.
  intros OK HP HS HX HA. destruct (decays_of _ _ (transforms_of _ _ (chain_responds m ps OK))) as (K & rho & K0 & R0 & D).
  assert (A0 : 0 <= A) by (specialize (HA 0%nat); pose proof (Rabs_pos (x 0%nat)); lra).
  exists (steady (chain_h m ps) x P s A K rho HP HS HX HA K0 R0 D). split; [apply steady_repeats|]. split; [apply steady_bound; intro n; apply (chain_bound m ps OK x A n A0 HA)|].
  exists (INR P * (A * K) / (1 - rho)), rho. split; [lra|]. intro n. apply steady_close.
Qed.
Lemma wave_settles m ps P x : (forall p, In p ps -> l_ok m p) -> (0 < P)%nat -> repeats P 1 x -> settles (conv (chain_h m ps) x) (chord (chord_thru m ps (harmonics P x))).
Proof.
  intros OK HP HX. eapply settles_ext; [| |apply (chord_settles m ps (harmonics P x) OK)]; [|reflexivity]. intro n. apply conv_ext; [reflexivity|]. intros k _. symmetry. apply harmonics_sum; assumption.
Qed.
Theorem wave_passes m ps : cos_accurate m -> pow_int_accurate m -> tan_accurate m -> (forall p, In p ps -> l_ok m p) ->
  forall P x A, (0 < P)%nat -> repeats P 1 x -> (forall n, Rabs (x n) <= A) -> let z := chord (chord_thru m ps (harmonics P x)) in
  repeats P 1 z /\ (forall n, Rabs (z n) <= total_gain m ps * A) /\ (forall Q s, (0 < Q)%nat -> s * s = 1 -> repeats Q s x -> repeats Q s z) /\
  exists K rho, 0 <= K /\ 0 <= rho < 1 /\ forall eps X xs, 0 <= eps -> bpow radix2 (-100) <= X -> chain_amp m ps X <= bpow radix2 90 -> near_signal x eps X xs ->
  exists ys, pipeline (b_prime kit kit_prime) (b_process kit (kit_process m)) (map (chain_block m) ps) xs = Ok ys /\ length ys = length xs /\ ends_up z (chain_err m ps eps X) K rho ys.
Proof.
  intros HC HQ HT OK P x A HP HX HA z. assert (RZ : repeats P 1 z) by (apply chord_repeats; exact HP). assert (SZ : settles (conv (chain_h m ps) x) z) by (apply wave_settles; assumption).
  assert (U : forall Q s, (0 < Q)%nat -> s * s = 1 -> repeats Q s x -> repeats Q s z /\ (forall n, Rabs (z n) <= total_gain m ps * A)).
  { intros Q s Q0 HS HQx. destruct (steady_exists m ps Q s x A OK Q0 HS HQx HA) as (z' & R1 & B1 & S1).
    assert (E : forall n, z n = z' n) by (apply (settles_unique (conv (chain_h m ps) x) z z' P (2 * Q)); try assumption; [lia|apply repeats_twice with s; assumption]).
    split; [intro n; rewrite !E; apply R1|intro n; rewrite E; apply B1]. }
  split; [exact RZ|]. split; [apply (U P 1 HP ltac:(ring) HX)|]. split; [intros Q s Q0 HS HQx; apply (U Q s Q0 HS HQx)|].
  destruct (chord_passes m ps HC HQ HT OK (harmonics P x)) as (K & rho & K0 & R0 & T). exists K, rho. split; [exact K0|]. split; [exact R0|].
  intros eps X xs He HXX HAM N. apply T; [exact He|exact HXX|exact HAM|]. intros j v Hj. destruct (N j v Hj) as (F & B & D). split; [exact F|]. split; [exact B|]. rewrite <- (harmonics_sum P x HP HX). exact D.
Qed.
