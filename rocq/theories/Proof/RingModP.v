(** * Ring modulation *)
From Coq Require Import ZArith List Bool Reals Lra Lia.
From Flocq Require Import Core.Core IEEE754.BinarySingleNaN.
From Verif Require Import Model.Floats Model.Utils Model.Generators Model.Modifiers Model.Filters Model.Sounds Model.Parts
  Spec.Libm Spec.Response Spec.Track Spec.SoundSpec Spec.Parts Spec.Chain Spec.Convolve Spec.Waves Spec.Chord Spec.RingMod
  Proof.FloatFacts Proof.FormatsP Proof.SampleFormatP Proof.SoundsP Proof.SoundsP2 Proof.SoundsP3 Proof.PartsP Proof.ChainP Proof.ChainP3 Proof.ChainP4 Proof.ConvolveP Proof.ConvolveP2 Proof.ConvolveP3 Proof.ChordP Proof.ChordP2 Proof.ChordP3 Proof.GeneratorsP Proof.GeneratorsP2 Proof.GeneratorsP3 Proof.GeneratorsP4.
Import ListNotations.
Local Open Scope R_scope.

(** ** trigonometry *)
Lemma chord_app a b n : chord (a ++ b) n = chord a n + chord b n.
Proof. unfold chord. induction a as [|t a IH]; cbn [app fold_right]; [ring|]. rewrite IH. ring. Qed.
Lemma one_tone a om w n : sin (a * INR n) * tone om w n = chord (sidebands a (om, w)) n.
Proof.
  unfold sidebands, chord, tone. cbn [fold_right fst snd]. replace ((a + om) * INR n) with (a * INR n + om * INR n) by ring. replace ((a - om) * INR n) with (a * INR n - om * INR n) by ring.
  set (b := om * INR n). set (c := a * INR n). rewrite cos_plus, sin_plus, cos_minus, sin_minus. field.
Qed.
Lemma chord_ring a ts n : sin (a * INR n) * chord ts n = chord (flat_map (sidebands a) ts) n.
Proof.
  induction ts as [|[om w] ts IH]; [cbn; ring|]. cbn [flat_map]. rewrite chord_app, <- one_tone, <- IH. unfold chord at 1. cbn [fold_right fst snd]. fold (chord ts n). ring.
Qed.
Lemma half_as_loud a om w t : In t (sidebands a (om, w)) -> cn2 (snd t) = cn2 w / 4.
Proof. cbn [sidebands In]. intros [<-|[<-|[]]]; unfold cn2; cbn [fst snd]; field. Qed.
Lemma tone_folds om w n : tone (2 * PI - om) w n = tone om (fst w, - snd w) n.
Proof.
  unfold tone. cbn [fst snd]. replace ((2 * PI - om) * INR n) with (- (om * INR n) + 2 * INR n * PI) by ring. rewrite Rtrigo1.cos_period, Rtrigo1.sin_period, cos_neg, Rtrigo1.sin_neg. ring.
Qed.
Lemma own_square om n : chord (sidebands om (om, (0, -1))) n = / 2 - cos (2 * om * INR n) / 2.
Proof. unfold sidebands, chord, tone. cbn [fold_right fst snd]. replace ((om - om) * INR n) with 0 by ring. rewrite cos_0, sin_0. replace ((om + om) * INR n) with (2 * om * INR n) by ring. field. Qed.
Lemma two_sines a om n : chord (sidebands a (om, (0, -1))) n = cos ((a - om) * INR n) / 2 - cos ((a + om) * INR n) / 2.
Proof. unfold sidebands, chord, tone. cbn [fold_right fst snd]. field. Qed.

(** ** the block *)
Lemma ring_outputs m f p xss vs : sin_bounded m -> sin_zero m -> sin_accurate m -> fin f -> 0 <= B2R f <= 48000 ->
  outputs (run_res (mod_alone (m_step m)) p xss) = Ok vs -> length vs = length xss ->
  exists ys, outputs (run_res (cycle kit_prime (kit_process m)) (kit_new (GSin (sin_new f)) p IDefault) xss) = Ok ys /\ length ys = length xss /\
    forall i y, nth_error ys i = Some y -> exists v, nth_error vs i = Some v /\ (fin v -> fin y /\ Rabs (B2R y) <= Rabs (B2R v) /\
      Rabs (B2R y - sin (rad (B2R f) * INR i) * B2R v) <= (sine_err i + bpow radix2 (-24)) * Rabs (B2R v) + bpow radix2 (-150)).
Proof.
  intros Sb Sz Sa F H E L. rewrite kit_product, E, <- kit_generator_plays, tone_plays. set (n := length xss) in *.
  destruct (sin_accuracy m f n Sb Sz Sa F H) as (ts & s' & Et & Lt & At).
  destruct (sin_hist m (repeat GNext n) Sb) with (s := sin_new f) as (ys2 & s2 & E2 & _ & B).
  { apply Forall_forall. intros o Ho. apply repeat_spec in Ho. subst o. exact I. } { apply sin_new_inv; assumption. }
  rewrite Et in E2. assert (ys2 = ts) as -> by congruence. rewrite Et. cbn [outputs both]. eexists. split; [reflexivity|]. split; [rewrite map_length, combine_length; lia|].
  intros i y Hi. rewrite nth_error_map in Hi. destruct (nth_error (combine ts vs) i) as [[t v]|] eqn:Ec; [|discriminate]. injection Hi as <-. cbn [fst snd].
  assert (Li : (i < n)%nat). { assert (Q : (i < length (combine ts vs))%nat) by (apply nth_error_Some; congruence). rewrite combine_length in Q. lia. }
  assert (CI : nth_error ts i = Some t /\ nth_error vs i = Some v).
  { clear -Ec. revert vs i Ec. induction ts as [|a ts IH]; intros [|b vs] [|i] Ec; try discriminate; cbn [combine nth_error] in *; [injection Ec as <- <-; auto|apply IH, Ec]. }
  destruct CI as [Nt Nv]. exists v. split; [exact Nv|]. intro Fv. destruct (At i Li) as (t' & Nt' & Ft & Dt). rewrite Nt in Nt'. injection Nt' as <-.
  rewrite Forall_forall in B. destruct (B t (nth_error_In _ _ Nt)) as [_ Bt].
  assert (BP : Rabs (B2R t * B2R v) <= Rabs (B2R v)). { rewrite Rabs_mult. rewrite <- (Rmult_1_l (Rabs (B2R v))) at 2. apply Rmult_le_compat_r; [apply Rabs_pos|apply Rabs_le; lra]. }
  assert (FMv : fmt32 (Rabs (B2R v))) by (apply generic_format_abs, fmt_B2R). 
  destruct (fmul_le t v (Rabs (B2R v)) Ft Fv FMv (abs_B2R_lt_emax _ _ v) BP) as (FM & V & BM).
  split; [exact FM|]. split; [exact BM|]. rewrite V.
  destruct (rnd_err_gen (prec:=24) (emax:=128) (B2R t * B2R v)) as (d & e & Hd & He & ->). change (SpecFloat.emin 24 128 - 1)%Z with (-150)%Z in He. change (- (24))%Z with (-24)%Z in Hd.
  replace (2 * PI * B2R f * INR i / 48000) with (rad (B2R f) * INR i) in Dt by (unfold rad; field). set (sn := sin (rad (B2R f) * INR i)) in *. fold (sine_err i) in Dt.
  replace (B2R t * B2R v * (1 + d) + e - sn * B2R v) with ((B2R t - sn) * B2R v + d * (B2R t * B2R v) + e) by ring.
  eapply Rle_trans; [apply Rabs_triang|]. apply Rplus_le_compat; [|exact He]. eapply Rle_trans; [apply Rabs_triang|]. rewrite Rmult_plus_distr_r. rewrite (Rabs_mult (B2R t - sn)), (Rabs_mult d).
  apply Rplus_le_compat; [apply Rmult_le_compat_r; [apply Rabs_pos|exact Dt]|apply Rmult_le_compat; try apply Rabs_pos; assumption].
Qed.
Lemma pass_alone m xs : outputs (run_res (mod_alone (m_step m)) MPass (map (fun x => [x]) xs)) = Ok (map (fadd f0) xs).
Proof. induction xs as [|x xs IH]; [reflexivity|]. cbn [map]. rewrite outputs_cons. unfold mod_alone at 1. cbn [m_step bind]. rewrite IH. reflexivity. Qed.
(** multiplying any signal by the sine *)
Lemma ring_multiplies m f xs : sin_bounded m -> sin_zero m -> sin_accurate m -> fin f -> 0 <= B2R f <= 48000 ->
  exists ys, pipeline (b_prime kit kit_prime) (b_process kit (kit_process m)) [ring_block f MPass] xs = Ok ys /\ length ys = length xs /\
    forall i y, nth_error ys i = Some y -> exists x, nth_error xs i = Some x /\ (fin x -> fin y /\ Rabs (B2R y) <= Rabs (B2R x) /\
      Rabs (B2R y - sin (rad (B2R f) * INR i) * B2R x) <= (sine_err i + bpow radix2 (-24)) * Rabs (B2R x) + bpow radix2 (-150)).
Proof.
  intros Sb Sz Sa F H. rewrite pipeline_cons. unfold ring_block. rewrite user_cycle.
  destruct (ring_outputs m f MPass (map (fun x => [x]) xs) (map (fadd f0) xs) Sb Sz Sa F H (pass_alone m xs)) as (ys & E & L & V); [rewrite !map_length; reflexivity|].
  exists ys. rewrite E. split; [reflexivity|]. split; [rewrite L; apply map_length|]. intros i y Hi. destruct (V i y Hi) as (v & Nv & Hv). rewrite nth_error_map in Nv.
  destruct (nth_error xs i) as [x|]; [|discriminate]. assert (v = fadd f0 x) as -> by (cbn [option_map] in Nv; congruence). exists x. split; [reflexivity|]. intro Fx. destruct (zero_plus x Fx) as [Fz Vz]. specialize (Hv Fz). rewrite Vz in Hv. exact Hv.
Qed.
(** a chord, or any other signal *)
Lemma ring_near m f z eps X xs : sin_bounded m -> sin_zero m -> sin_accurate m -> fin f -> 0 <= B2R f <= 48000 -> near_signal z eps X xs ->
  exists ys, pipeline (b_prime kit kit_prime) (b_process kit (kit_process m)) [ring_block f MPass] xs = Ok ys /\ length ys = length xs /\
    forall i y, nth_error ys i = Some y -> fin y /\ Rabs (B2R y) <= X /\ Rabs (B2R y - sin (rad (B2R f) * INR i) * z i) <= eps + (sine_err i + bpow radix2 (-24)) * X + bpow radix2 (-150).
Proof.
  intros Sb Sz Sa F H N. destruct (ring_multiplies m f xs Sb Sz Sa F H) as (ys & E & L & V). exists ys. split; [exact E|]. split; [exact L|].
  intros i y Hi. destruct (V i y Hi) as (x & Nx & Hx). destruct (N i x Nx) as (Fx & Bx & Dx). destruct (Hx Fx) as (Fy & By & Dy). split; [exact Fy|]. split; [lra|].
  set (sn := sin (rad (B2R f) * INR i)) in *. assert (S1 : Rabs sn <= 1) by (apply Rabs_le; pose proof (SIN_bound (rad (B2R f) * INR i)); unfold sn; lra).
  assert (S0 : 0 <= sine_err i + bpow radix2 (-24)) by (unfold sine_err; pose proof (bpow_ge_0 radix2 (-9)); pose proof (bpow_ge_0 radix2 (-24)); pose proof (Rmult_le_pos _ _ (pos_INR i) (bpow_ge_0 radix2 (-48))); lra).
  assert (P : (sine_err i + bpow radix2 (-24)) * Rabs (B2R x) <= (sine_err i + bpow radix2 (-24)) * X) by (apply Rmult_le_compat_l; assumption).
  assert (Q : Rabs (sn * B2R x - sn * z i) <= eps).
  { rewrite <- Rmult_minus_distr_l, Rabs_mult. eapply Rle_trans; [|exact Dx]. rewrite <- (Rmult_1_l (Rabs (B2R x - z i))) at 2. apply Rmult_le_compat_r; [apply Rabs_pos|exact S1]. }
  apply Rabs_le_inv in Dy, Q. apply Rabs_le. lra.
Qed.

(** ** a sine, ring modulated, through a chain *)
Lemma sine_err_pos i : 0 <= sine_err i.
Proof. unfold sine_err. pose proof (bpow_ge_0 radix2 (-9)). pose proof (Rmult_le_pos _ _ (pos_INR i) (bpow_ge_0 radix2 (-48))). lra. Qed.
Lemma sine_err_le i j : (i <= j)%nat -> sine_err i <= sine_err j.
Proof. intro H. unfold sine_err. apply Rplus_le_compat_l, Rmult_le_compat_r; [apply bpow_ge_0|apply le_INR, H]. Qed.
Lemma ring_pair m f c xs : sin_bounded m -> sin_zero m -> sin_accurate m -> fin f -> 0 <= B2R f <= 48000 -> fin c -> 0 <= B2R c <= 48000 ->
  exists ys, pipeline (b_prime kit kit_prime) (b_process kit (kit_process m)) [tone_block f; ring_block c MPass] xs = Ok ys /\ length ys = length xs /\
    near_signal (chord (sidebands (rad (B2R c)) (rad (B2R f), (0, -1)))) (2 * sine_err (Nat.pred (length xs)) + bpow radix2 (-23)) 1 ys.
Proof.
  intros Sb Sz Sa F H Fc Hc. rewrite pipeline_cons. unfold tone_block. rewrite user_cycle, tone_plays, map_length. set (n := length xs).
  destruct (sine_near m f n Sb Sz Sa F H) as (ts & s' & E & L & N). rewrite E. cbn [outputs bind].
  destruct (ring_near m c (tone (rad (B2R f)) (0, -1)) (sine_err (Nat.pred n)) 1 ts Sb Sz Sa Fc Hc) as (ys & EY & LY & V).
  { intros j v Hj. destruct (N j v Hj) as (A & B & D). split; [exact A|]. split; [exact B|]. rewrite Rmult_0_l, Rplus_0_r in D. exact D. }
  exists ys. split; [exact EY|]. split; [congruence|]. intros i y Hi. destruct (V i y Hi) as (Fy & By & Dy). split; [exact Fy|]. split; [exact By|]. rewrite <- one_tone.
  assert (Li : (i < n)%nat) by (rewrite <- L, <- LY; apply nth_error_Some; congruence). pose proof (sine_err_le i (Nat.pred n) ltac:(lia)) as S1.
  assert (B1 : bpow radix2 (-24) + bpow radix2 (-150) <= bpow radix2 (-23)). { replace (bpow radix2 (-23)) with (bpow radix2 (-24) + bpow radix2 (-24)) by (cbn; lra). apply Rplus_le_compat_l, bpow_le. lia. }
  lra.
Qed.
Lemma pipeline_app {B} (prime : B -> f32 -> B) (process : B -> res (f32 * B)) bs cs : forall xs, pipeline prime process (bs ++ cs) xs = do ys <- pipeline prime process bs xs; pipeline prime process cs ys.
Proof.
  induction bs as [|b bs IH]; intro xs; [reflexivity|]. cbn [app]. rewrite !pipeline_cons. destruct (outputs (run_res (cycle prime process) b (map (fun x => [x]) xs))) as [ys|]; [apply IH|reflexivity].
Qed.
Lemma ring_pipeline m f c ps : sin_bounded m -> sin_zero m -> sin_accurate m -> cos_accurate m -> pow_int_accurate m -> tan_accurate m ->
  fin f -> 0 <= B2R f <= 48000 -> fin c -> 0 <= B2R c <= 48000 -> (forall p, In p ps -> l_ok m p) -> chain_amp m ps 1 <= bpow radix2 90 ->
  exists K rho, 0 <= K /\ 0 <= rho < 1 /\ forall xs, exists ys,
    pipeline (b_prime kit kit_prime) (b_process kit (kit_process m)) (tone_block f :: ring_block c MPass :: map (chain_block m) ps) xs = Ok ys /\ length ys = length xs /\
    forall i y, nth_error ys i = Some y -> fin y /\
      Rabs (B2R y - chord (chord_thru m ps (sidebands (rad (B2R c)) (rad (B2R f), (0, -1)))) i) <= chain_err m ps (2 * sine_err i + bpow radix2 (-23)) 1 + K * rho ^ i.
Proof.
  intros Sb Sz Sa HC HP HT F H Fc Hc OK HA. set (ts := sidebands (rad (B2R c)) (rad (B2R f), (0, -1))).
  assert (B1 : bpow radix2 (-100) <= 1) by (change 1 with (bpow radix2 0); apply bpow_le; lia).
  destruct (chord_passes m ps HC HP HT OK ts) as (K & rho & K0 & R0 & T). exists K, rho. split; [exact K0|]. split; [exact R0|].
  assert (EP : forall k, 0 <= 2 * sine_err k + bpow radix2 (-23)) by (intro k; pose proof (sine_err_pos k); pose proof (bpow_ge_0 radix2 (-23)); lra).
  assert (G : forall xs, exists ys, pipeline (b_prime kit kit_prime) (b_process kit (kit_process m)) (tone_block f :: ring_block c MPass :: map (chain_block m) ps) xs = Ok ys /\ length ys = length xs /\
     ends_up (chord (chord_thru m ps ts)) (chain_err m ps (2 * sine_err (Nat.pred (length xs)) + bpow radix2 (-23)) 1) K rho ys).
  { intro xs. destruct (ring_pair m f c xs Sb Sz Sa F H Fc Hc) as (zs & EZ & LZ & NZ). fold ts in NZ. destruct (T _ 1 zs (EP _) B1 HA NZ) as (ys & EY & LY & NY). exists ys.
    change (tone_block f :: ring_block c MPass :: map (chain_block m) ps) with ([tone_block f; ring_block c MPass] ++ map (chain_block m) ps). rewrite pipeline_app, EZ. split; [exact EY|]. split; [congruence|exact NY]. }
  intro xs. destruct (G xs) as (ys & EY & LY & _). exists ys. split; [exact EY|]. split; [exact LY|]. intros i y Hi.
  assert (Li : (i < length xs)%nat) by (rewrite <- LY; apply nth_error_Some; congruence).
  destruct (G (firstn (S i) xs)) as (ys' & EY' & _ & NY'). rewrite (pipeline_firstn _ _ (S i) _ _ _ EY) in EY'. injection EY' as <-.
  rewrite firstn_length, Nat.min_l in NY' by lia. cbn [Nat.pred] in NY'. apply NY'. rewrite <- (firstn_skipn (S i) ys) in Hi. rewrite nth_error_app1 in Hi; [exact Hi|]. rewrite firstn_length. lia.
Qed.
Lemma ring_sound m f c ps gi go g calls h : sin_bounded m -> sin_zero m -> sin_accurate m -> cos_accurate m -> pow_int_accurate m -> tan_accurate m ->
  fin f -> 0 <= B2R f <= 48000 -> fin c -> 0 <= B2R c <= 48000 -> (forall p, In p ps -> l_ok m p) -> chain_amp m ps 1 <= bpow radix2 90 ->
  NoDup (g :: added calls) -> map (get_mut kit h) (g :: added calls) = map Some (tone_block f :: ring_block c MPass :: map (chain_block m) ps) ->
  exists K rho, 0 <= K /\ 0 <= rho < 1 /\ forall xs, exists ys,
    outputs (run_res (ss_process kit kit_prime (kit_process m) (fold_left madd_step calls (ss_new gi go g))) h xs) = Ok (map (fun y => fmul y (to32 go)) ys) /\ length ys = length xs /\
    forall i y, nth_error ys i = Some y -> fin y /\
      Rabs (B2R y - chord (chord_thru m ps (sidebands (rad (B2R c)) (rad (B2R f), (0, -1)))) i) <= chain_err m ps (2 * sine_err i + bpow radix2 (-23)) 1 + K * rho ^ i.
Proof.
  intros Sb Sz Sa HC HP HT F H Fc Hc OK HA ND HH. destruct (ring_pipeline m f c ps Sb Sz Sa HC HP HT F H Fc Hc OK HA) as (K & rho & K0 & R0 & T).
  exists K, rho. split; [exact K0|]. split; [exact R0|]. intro xs. destruct (T (map (fun x => fmul x (to32 gi)) xs)) as (ys & E & L & B). exists ys.
  rewrite (sound_pipeline kit kit_prime (kit_process m) gi go g calls h _ _ xs ND HH), E. split; [reflexivity|]. split; [rewrite L; apply map_length|exact B].
Qed.
(** without a chain there is nothing to die out *)
Lemma ring_two m f c gi go g calls h xs : sin_bounded m -> sin_zero m -> sin_accurate m -> fin f -> 0 <= B2R f <= 48000 -> fin c -> 0 <= B2R c <= 48000 ->
  NoDup (g :: added calls) -> map (get_mut kit h) (g :: added calls) = map Some [tone_block f; ring_block c MPass] ->
  exists ys, outputs (run_res (ss_process kit kit_prime (kit_process m) (fold_left madd_step calls (ss_new gi go g))) h xs) = Ok (map (fun y => fmul y (to32 go)) ys) /\ length ys = length xs /\
    forall i y, nth_error ys i = Some y -> fin y /\ Rabs (B2R y) <= 1 /\
      Rabs (B2R y - (cos (rad (B2R c - B2R f) * INR i) / 2 - cos (rad (B2R c + B2R f) * INR i) / 2)) <= 2 * sine_err i + bpow radix2 (-23).
Proof.
  intros Sb Sz Sa F H Fc Hc ND HH. set (xs' := map (fun x => fmul x (to32 gi)) xs). destruct (ring_pair m f c xs' Sb Sz Sa F H Fc Hc) as (ys & E & L & _). exists ys.
  rewrite (sound_pipeline kit kit_prime (kit_process m) gi go g calls h _ _ xs ND HH). fold xs'. rewrite E. split; [reflexivity|]. split; [rewrite L; apply map_length|].
  intros i y Hi. assert (Li : (i < length xs')%nat) by (rewrite <- L; apply nth_error_Some; congruence).
  destruct (ring_pair m f c (firstn (S i) xs') Sb Sz Sa F H Fc Hc) as (ys' & E' & _ & N). rewrite (pipeline_firstn _ _ (S i) _ _ _ E) in E'. injection E' as <-.
  rewrite firstn_length, Nat.min_l in N by lia. cbn [Nat.pred] in N. destruct (N i y) as (A & B & D). { rewrite <- (firstn_skipn (S i) ys) in Hi. rewrite nth_error_app1 in Hi; [exact Hi|]. rewrite firstn_length. lia. }
  split; [exact A|]. split; [exact B|]. rewrite two_sines in D. replace (rad (B2R c - B2R f)) with (rad (B2R c) - rad (B2R f)) by (unfold rad; field). replace (rad (B2R c + B2R f)) with (rad (B2R c) + rad (B2R f)) by (unfold rad; field). exact D.
Qed.
Lemma sideband_level a om w t : In t (sidebands a (om, w)) -> (fst t = a + om \/ fst t = a - om) /\ cn2 (snd t) = cn2 w / 4.
Proof. intro H. split; [|exact (half_as_loud a om w t H)]. cbn [sidebands In] in H. destruct H as [<-|[<-|[]]]; [left|right]; reflexivity. Qed.
Lemma tone_fold f w n : tone (rad f) w n = tone (rad (48000 - f)) (fst w, - snd w) n.
Proof. rewrite <- tone_folds. f_equal. unfold rad. field. Qed.
Lemma ring_chord m f ts eps X xs : sin_bounded m -> sin_zero m -> sin_accurate m -> fin f -> 0 <= B2R f <= 48000 -> near_signal (chord ts) eps X xs ->
  exists ys, pipeline (b_prime kit kit_prime) (b_process kit (kit_process m)) [ring_block f MPass] xs = Ok ys /\ length ys = length xs /\
    forall i y, nth_error ys i = Some y -> fin y /\ Rabs (B2R y) <= X /\
      Rabs (B2R y - chord (flat_map (sidebands (rad (B2R f))) ts) i) <= eps + (sine_err i + bpow radix2 (-24)) * X + bpow radix2 (-150).
Proof.
  intros Sb Sz Sa F H N. destruct (ring_near m f (chord ts) eps X xs Sb Sz Sa F H N) as (ys & E & L & V). exists ys. split; [exact E|]. split; [exact L|].
  intros i y Hi. destruct (V i y Hi) as (A & B & D). split; [exact A|]. split; [exact B|]. rewrite <- chord_ring. exact D.
Qed.
Lemma ring_same m f gi go g calls h xs : sin_bounded m -> sin_zero m -> sin_accurate m -> fin f -> 0 <= B2R f <= 48000 ->
  NoDup (g :: added calls) -> map (get_mut kit h) (g :: added calls) = map Some [tone_block f; ring_block f MPass] ->
  exists ys, outputs (run_res (ss_process kit kit_prime (kit_process m) (fold_left madd_step calls (ss_new gi go g))) h xs) = Ok (map (fun y => fmul y (to32 go)) ys) /\ length ys = length xs /\
    forall i y, nth_error ys i = Some y -> Rabs (B2R y - (/ 2 - cos (rad (2 * B2R f) * INR i) / 2)) <= 2 * sine_err i + bpow radix2 (-23).
Proof.
  intros Sb Sz Sa F H ND HH. destruct (ring_two m f f gi go g calls h xs Sb Sz Sa F H F H ND HH) as (ys & E & L & V). exists ys. split; [exact E|]. split; [exact L|].
  intros i y Hi. destruct (V i y Hi) as (_ & _ & D). replace (rad (B2R f - B2R f) * INR i) with 0 in D by (unfold rad; field). rewrite cos_0 in D. replace (B2R f + B2R f) with (2 * B2R f) in D by ring.
  replace (/ 2 - cos (rad (2 * B2R f) * INR i) / 2) with (1 / 2 - cos (rad (2 * B2R f) * INR i) / 2) by field. exact D.
Qed.
