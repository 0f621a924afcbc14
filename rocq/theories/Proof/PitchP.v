(** * Proofs: recordings of smooth curves and of tones, played at another speed *)
From Coq Require Import ZArith List Bool Reals Lra Lia Psatz.
From Flocq Require Import Core.Core IEEE754.BinarySingleNaN.
From Verif Require Import Model.Floats Model.Mono Model.Wav Model.Resampler Spec.Playback Spec.Response Spec.Pitch
  Proof.FloatFacts Proof.WavP Proof.ResamplerP Proof.ResamplerP2 Proof.ResamplerP3 Proof.PlayP.
Import ListNotations.
Local Open Scope R_scope.

(** ** linear interpolation of a smooth curve *)
Lemma shift_lim g l a t : derivable_pt_lim g (a + t) l -> derivable_pt_lim (fun t => g (a + t)) t l.
Proof.
  intros H eps He. destruct (H eps He) as (d & Hd). exists d. intros h H0 H1. rewrite <- Rplus_assoc. exact (Hd h H0 H1).
Qed.
Lemma quad_lim A B K t : derivable_pt_lim (fun t => A * t * t + B * t + K) t (2 * A * t + B).
Proof.
  intros eps He. assert (P : 0 < eps / (Rabs A + 1)).
  { apply Rdiv_lt_0_compat; [exact He|]. pose proof (Rabs_pos A). lra. }
  exists (mkposreal _ P). intros h H0 H1. cbn [pos] in H1.
  replace ((A * (t + h) * (t + h) + B * (t + h) + K - (A * t * t + B * t + K)) / h - (2 * A * t + B)) with (A * h) by (field; exact H0).
  rewrite Rabs_mult. pose proof (Rabs_pos A) as A0. pose proof (Rabs_pos h) as h0.
  apply Rle_lt_trans with ((Rabs A + 1) * Rabs h); [nra|].
  apply Rlt_le_trans with ((Rabs A + 1) * (eps / (Rabs A + 1))); [apply Rmult_lt_compat_l; lra|].
  right. field. lra.
Qed.
Lemma concave (f f1 f2 : R -> R) x : (forall t, derivable_pt_lim f t (f1 t)) -> (forall t, derivable_pt_lim f1 t (f2 t)) ->
  (forall t, f2 t <= 0) -> f 0 = 0 -> f 1 = 0 -> 0 < x < 1 -> 0 <= f x.
Proof.
  intros D1 D2 N Z0 Z1 Hx. apply Rnot_lt_le. intro Ng.
  destruct (MVT_cor2 f f1 0 x) as (c & Ec & Hc); [lra|intros; apply D1|].
  destruct (MVT_cor2 f f1 x 1) as (d & Ed & Hd); [lra|intros; apply D1|].
  destruct (MVT_cor2 f1 f2 c d) as (q & Eq & Hq); [lra|intros; apply D2|].
  specialize (N q). rewrite Z0 in Ec. rewrite Z1 in Ed.
  assert (f1 c < 0) by nra. assert (0 < f1 d) by nra. assert (f2 q * (d - c) <= 0) by nra. lra.
Qed.
Lemma quarter x : x * (1 - x) <= / 4.
Proof. pose proof (Rle_0_sqr (x - / 2)) as H. unfold Rsqr in H. lra. Qed.
Lemma chord_under L M g a x : smooth L M g -> 0 <= x <= 1 -> g (a + x) - (g a + x * (g (a + 1) - g a)) <= M / 8.
Proof.
  intros (g1 & g2 & D & B) Hx.
  assert (M0 : 0 <= M) by (destruct (B 0) as [_ X]; pose proof (Rabs_pos (g2 0)); lra).
  destruct (Req_dec x 0) as [->|X0]; [rewrite Rplus_0_r; lra|].
  destruct (Req_dec x 1) as [->|X1]; [lra|].
  set (f := fun t => ((- (M / 2)) * t * t + (M / 2 + (g (a + 1) - g a)) * t + g a) - g (a + t)).
  assert (H : 0 <= f x).
  { apply (concave f (fun t => (2 * - (M / 2) * t + (M / 2 + (g (a + 1) - g a))) - g1 (a + t)) (fun t => (2 * 0 * t + 2 * - (M / 2)) - g2 (a + t))); [| | | | |lra].
    - intro t. apply (derivable_pt_lim_minus (fun t => - (M / 2) * t * t + (M / 2 + (g (a + 1) - g a)) * t + g a) (fun t => g (a + t))).
      + apply quad_lim. + apply shift_lim. apply D.
    - intro t. apply (derivable_pt_lim_minus (fun t => 2 * - (M / 2) * t + (M / 2 + (g (a + 1) - g a))) (fun t => g1 (a + t))).
      + pose proof (quad_lim 0 (2 * - (M / 2)) (M / 2 + (g (a + 1) - g a)) t) as Q. intros eps He. destruct (Q eps He) as (d & Hd).
        exists d. intros h H0 H1. specialize (Hd h H0 H1).
        replace (2 * - (M / 2) * (t + h) + (M / 2 + (g (a + 1) - g a)) - (2 * - (M / 2) * t + (M / 2 + (g (a + 1) - g a))))
          with (0 * (t + h) * (t + h) + 2 * - (M / 2) * (t + h) + (M / 2 + (g (a + 1) - g a)) -
            (0 * t * t + 2 * - (M / 2) * t + (M / 2 + (g (a + 1) - g a)))) by ring. exact Hd.
      + apply shift_lim. apply D.
    - intro t. destruct (B (a + t)) as [_ X]. apply Rabs_le_inv in X. lra.
    - unfold f. rewrite Rplus_0_r. ring.
    - unfold f. ring. }
  unfold f in H. cbn beta in H. clear f. pose proof (quarter x) as Q.
  pose proof (Rmult_le_compat_l (M / 2) _ _ ltac:(lra) Q) as Q'. lra.
Qed.
Lemma smooth_opp L M g : smooth L M g -> smooth L M (fun t => - g t).
Proof.
  intros (g1 & g2 & D & B). exists (fun t => - g1 t), (fun t => - g2 t). split; intro t.
  - split; apply (derivable_pt_lim_opp _ t); apply D.
  - rewrite !Rabs_Ropp. apply B.
Qed.
Lemma chord_near L M g a x : smooth L M g -> 0 <= x <= 1 -> Rabs (g a + x * (g (a + 1) - g a) - g (a + x)) <= M / 8.
Proof.
  intros Sm Hx. pose proof (chord_under L M g a x Sm Hx) as U. pose proof (chord_under L M _ a x (smooth_opp _ _ _ Sm) Hx) as V. cbn beta in V.
  apply Rabs_le. split; lra.
Qed.
Lemma smooth_lip L M g a b : smooth L M g -> Rabs (g b - g a) <= L * Rabs (b - a).
Proof.
  intros (g1 & g2 & D & B).
  assert (U : forall a b, a < b -> Rabs (g b - g a) <= L * Rabs (b - a)).
  { intros u v H. destruct (MVT_cor2 g g1 u v H) as (c & E & _); [intros; apply D|]. rewrite E, Rabs_mult.
    apply Rmult_le_compat_r; [apply Rabs_pos|]. apply B. }
  destruct (Rtotal_order a b) as [H|[H|H]]; [apply U; exact H| |].
  - subst b. rewrite !Rminus_diag_eq, Rabs_R0 by reflexivity. lra.
  - rewrite <- (Rabs_Ropp (g b - g a)), <- (Rabs_Ropp (b - a)), !Ropp_minus_distr. apply U. exact H.
Qed.

(** ** tones are smooth *)
Lemma lin_comb_trig om A B t :
  derivable_pt_lim (fun t => A * cos (om * t) - B * sin (om * t)) t (- (om * B) * cos (om * t) - om * A * sin (om * t)).
Proof.
  assert (Dl : derivable_pt_lim (fun t => om * t) t om).
  { intros eps He. exists (mkposreal _ He). intros h H0 _. replace ((om * (t + h) - om * t) / h - om) with 0 by (field; exact H0).
    rewrite Rabs_R0. exact He. }
  pose proof (derivable_pt_lim_comp _ _ t _ _ Dl (derivable_pt_lim_cos (om * t))) as Dc.
  pose proof (derivable_pt_lim_comp _ _ t _ _ Dl (derivable_pt_lim_sin (om * t))) as Ds.
  pose proof (derivable_pt_lim_minus _ _ t _ _ (derivable_pt_lim_scal _ A _ _ Dc) (derivable_pt_lim_scal _ B _ _ Ds)) as H.
  replace (- (om * B) * cos (om * t) - om * A * sin (om * t)) with (A * (- sin (om * t) * om) - B * (cos (om * t) * om)) by ring.
  exact H.
Qed.
Lemma trig_mod (A B x : R) : Rabs (A * cos x - B * sin x) <= sqrt (A * A + B * B).
Proof.
  apply Rsqr_incr_0_var; [|apply sqrt_pos]. rewrite <- Rsqr_abs, Rsqr_sqrt by nra. unfold Rsqr.
  pose proof (sin2_cos2 x) as E. unfold Rsqr in E. set (c := cos x) in *. set (s := sin x) in *. clearbody c s.
  pose proof (Rle_0_sqr (A * s + B * c)) as Z. unfold Rsqr in Z.
  replace (A * A + B * B) with ((A * A + B * B) * (s * s + c * c)) by (rewrite E; ring). lra.
Qed.
Lemma rtone_smooth om w : 0 <= om -> smooth (om * modulus w) (om * om * modulus w) (rtone om w).
Proof.
  intro H0. destruct w as [A B]. exists (rtone om (- (om * B), om * A)), (rtone om (- (om * (om * A)), om * (- (om * B)))).
  split; intro t; split.
  - exact (lin_comb_trig om A B t).
  - exact (lin_comb_trig om (- (om * B)) (om * A) t).
  - unfold rtone. cbn [fst snd]. eapply Rle_trans; [apply trig_mod|]. right. unfold modulus, cn2. cbn [fst snd].
    replace (- (om * B) * - (om * B) + om * A * (om * A)) with (om * om * (A * A + B * B)) by ring.
    rewrite sqrt_mult, sqrt_square by nra. reflexivity.
  - unfold rtone. cbn [fst snd]. eapply Rle_trans; [apply trig_mod|]. right. unfold modulus, cn2. cbn [fst snd].
    replace (- (om * (om * A)) * - (om * (om * A)) + om * - (om * B) * (om * - (om * B))) with ((om * om) * (om * om) * (A * A + B * B)) by ring.
    rewrite sqrt_mult, sqrt_square by nra. reflexivity.
Qed.
Lemma rtone_tone om w n : rtone om w (INR n) = tone om w n. Proof. reflexivity. Qed.
Lemma rtone_scale om w c t : rtone om w (t * c) = rtone (om * c) w t.
Proof. unfold rtone. replace (om * (t * c)) with (om * c * t) by ring. reflexivity. Qed.

(** ** playback of a recording *)
Lemma recorded eps g data j : recording eps g data -> (0 <= j < Z.of_nat (length data))%Z ->
  Rabs (held data j - g (IZR j)) <= eps.
Proof.
  intros Rc H. unfold held. rewrite Z.min_l by lia.
  destruct (nth_error data (Z.to_nat j)) as [d|] eqn:E.
  - rewrite (nth_error_nth _ _ _ E). replace (IZR j) with (INR (Z.to_nat j)); [apply Rc; exact E|].
    rewrite INR_IZR_INZ, Z2Nat.id by lia. reflexivity.
  - apply nth_error_None in E. lia.
Qed.
Lemma mix_err (x a b u v eps : R) : 0 <= x <= 1 -> Rabs (a - u) <= eps -> Rabs (b - v) <= eps ->
  Rabs (a + x * (b - a) - (u + x * (v - u))) <= eps.
Proof.
  intros Hx Ha Hb. apply Rabs_le_inv in Ha, Hb. apply Rabs_le.
  assert (x * (- eps) <= x * (b - v) <= x * eps) by (split; apply Rmult_le_compat_l; lra).
  assert ((1 - x) * (- eps) <= (1 - x) * (a - u) <= (1 - x) * eps) by (split; apply Rmult_le_compat_l; lra). lra.
Qed.

(** one call *)
Lemma smooth_call e data r y r' L M g eps : (-124 <= e <= 125)%Z -> within e data -> (Z.of_nat (length data) <= 2 ^ 24)%Z ->
  smooth L M g -> recording eps g data -> playing r -> r_data r = data -> B2R (r_ind r) < IZR (Z.of_nat (length data)) - 1 ->
  resampler_process r = Ok (y, r') ->
  let p := B2R (r_ind r) in let D := bpow radix2 (e - 22) + eps + M / 8 in
  fin y /\ (~ below_power p -> Rabs (B2R y - g p) <= D) /\ Rabs (B2R y - g p) <= D + L.
Proof.
  intros He W K24 Sm Rc P1 DD B1 E2 p D. fold p in B1.
  assert (p0 : 0 <= p) by apply P1.
  assert (W1 : within e (r_data r)) by (rewrite DD; exact W).
  assert (L1 : (Z.of_nat (length (r_data r)) <= 2 ^ 24)%Z) by (rewrite DD; exact K24).
  assert (B1' : B2R (r_ind r) < IZR (Z.of_nat (length (r_data r)))) by (rewrite DD; fold p; lra).
  destruct (interpolates e r _ r' He W1 P1 L1 B1' E2) as (Fy & Iy).
  rewrite DD in Iy. fold p in Iy.
  assert (L0 : 0 <= L) by (destruct Sm as (g1 & g2 & _ & X); pose proof (Rabs_pos (g1 0)); destruct (X 0); lra).
  pose proof (Zfloor_lb p) as Flb. pose proof (Zfloor_ub p) as Fub.
  assert (F0 : (0 <= Zfloor p)%Z) by (apply Zfloor_lub; exact p0).
  assert (F1 : (Zfloor p + 1 < Z.of_nat (length data))%Z).
  { apply lt_IZR. rewrite plus_IZR. lra. }
  assert (Main : ~ below_power p -> Rabs (B2R y - g p) <= D).
  { intro NB. specialize (Iy NB). unfold interpolated in Iy. set (j := Zfloor p) in *.
    pose proof (recorded eps g data j Rc ltac:(lia)) as R1. pose proof (recorded eps g data (j + 1) Rc ltac:(lia)) as R2. rewrite plus_IZR in R2.
    pose proof (mix_err (p - IZR j) _ _ _ _ _ ltac:(lra) R1 R2) as Mx.
    pose proof (chord_near L M g (IZR j) (p - IZR j) Sm ltac:(lra)) as Ch.
    replace (IZR j + (p - IZR j)) with p in Ch by ring.
    apply Rabs_le_inv in Iy, Mx, Ch. unfold D. apply Rabs_le. split; lra. }
  split; [exact Fy|]. split; [exact Main|].
  assert (Cases : below_power p \/ ~ below_power p) by apply Classical_Prop.classic.
  destruct Cases as [(q & Hq & Ep)|NB]; [|specialize (Main NB); lra].
  assert (Ez : IZR (2 ^ q) = bpow radix2 q) by (apply IZR_pow2; lia).
  assert (Sq : bpow radix2 (q - 24) <= / 4) by (apply Rle_trans with (bpow radix2 (-2)); [apply bpow_le; lia|simpl; lra]).
  pose proof (bpow_gt_0 radix2 (q - 24)) as Sq0.
  assert (Fp : Zfloor p = (2 ^ q - 1)%Z).
  { apply Zfloor_imp. rewrite plus_IZR, minus_IZR, Ez. lra. }
  assert (Ne : Z.of_nat (length data) <> (2 ^ q + 1)%Z).
  { intro X. assert (resampler_process r = Panic); [|congruence].
    apply process_nl_panic_iff; [apply P1|exact L1|]. exists q. split; [lia|]. rewrite DD. split; [exact X|].
    split; [apply P1|exact Ep]. }
  assert (L2 : (2 ^ q + 1 < Z.of_nat (length (r_data r)) <= 2 ^ 24)%Z) by (rewrite DD; lia).
  destruct (misread e q r _ r' He W1 P1 Hq L2 Ep E2) as (_ & Ms).
  rewrite DD in Ms.
  pose proof (recorded eps g data (2 ^ q - 1) Rc ltac:(lia)) as R1. pose proof (recorded eps g data (2 ^ q + 1) Rc ltac:(lia)) as R2.
  pose proof (mix_err (1 - bpow radix2 (q - 24)) _ _ _ _ _ ltac:(lra) R1 R2) as Mx.
  pose proof (chord_near L M g (IZR (2 ^ q - 1)) (1 - bpow radix2 (q - 24)) Sm ltac:(lra)) as Ch.
  rewrite minus_IZR, plus_IZR, Ez in *. set (b := bpow radix2 q) in *. set (d := bpow radix2 (q - 24)) in *.
  replace (b - 1 + (1 - d)) with p in Ch by lra. replace (b - 1 + 1) with b in Ch by ring.
  pose proof (smooth_lip L M g b (b + 1) Sm) as Lb. replace (b + 1 - b) with 1 in Lb by ring. rewrite Rabs_R1, Rmult_1_r in Lb.
  assert (Xt : Rabs ((1 - d) * (g (b + 1) - g b)) <= L).
  { rewrite Rabs_mult, (Rabs_pos_eq (1 - d)) by lra. pose proof (Rabs_pos (g (b + 1) - g b)). nra. }
  apply Rabs_le_inv in Ms, Mx, Ch, Xt. unfold D. apply Rabs_le. split; lra.
Qed.

Lemma smooth_playback e k data (rate speed : f64) n ys r' L M g eps : (-124 <= e <= 125)%Z -> within e data -> (0 <= k <= 24)%Z ->
  (Z.of_nat (length data) <= 2 ^ k)%Z -> fin rate -> 1 <= B2R rate <= 1048576 ->
  fin speed -> / 1048576 <= B2R speed <= 1048576 ->
  smooth L M g -> recording eps g data ->
  rcalls n (player data rate speed) = Ok (ys, r') ->
  let c := B2R rate * B2R speed / 48000 in let len := IZR (Z.of_nat (length data)) in
  let drift := c * bpow radix2 (-22) + bpow radix2 (k - 25) in
  let D i := bpow radix2 (e - 22) + eps + M / 8 + L * (INR i * drift) in
  forall i, (i < n)%nat -> INR i * (c + drift) < len - 1 ->
    exists p, Rabs (p - INR i * c) <= INR i * drift /\ is_finite (nth i ys f0) = true /\
      (~ below_power p -> Rabs (B2R (nth i ys f0) - g (INR i * c)) <= D i) /\
      Rabs (B2R (nth i ys f0) - g (INR i * c)) <= D i + L.
Proof.
  intros He W Hk HL Fr Hr Fs Hs Sm Rc E c len drift D i Hi Q.
  assert (K24 : (2 ^ k <= 2 ^ 24)%Z) by (apply Z.pow_le_mono_r; lia).
  destruct (player_playing data rate speed Fr Hr Fs Hs ltac:(lia)) as (Pl & P0).
  destruct (step_near data rate speed Fr Hr Fs Hs) as (_ & S0). fold c in S0.
  set (r := player data rate speed) in *. assert (Dr : r_data r = data) by reflexivity.
  assert (HT : len <= bpow radix2 k) by (unfold len; rewrite <- IZR_pow2 by lia; apply IZR_le; exact HL).
  destruct (rcalls_nth n i r ys r' Hi E) as (zs & r1 & r2 & E1 & E2).
  destruct (rcalls_playing _ _ _ _ Pl E1) as (P1 & S1 & D1 & M1).
  assert (HR : len <= IZR (Z.of_nat (length (r_data r)))) by (rewrite Dr; unfold len; lra).
  pose proof (pos_INR i) as I0. pose proof (bpow_gt_0 radix2 (k - 25)) as Pd.
  assert (HT' : len - 1 <= bpow radix2 k) by lra.
  assert (HR' : len - 1 <= IZR (Z.of_nat (length (r_data r)))) by lra.
  assert (B1 : B2R (r_ind r1) < len - 1).
  { apply (not_before k Hk i r zs r1 (len - 1) Pl E1 HT' HR'). rewrite P0.
    assert (INR i * (B2R (step r) + bpow radix2 (k - 25)) <= INR i * (c + drift)) by (unfold drift; apply Rmult_le_compat_l; lra).
    unfold drift in *. lra. }
  assert (DD : r_data r1 = data) by (rewrite D1; exact Dr).
  destruct (smooth_call e data r1 _ r2 L M g eps He W ltac:(lia) Sm Rc P1 DD B1 E2) as (Fy & A & B).
  set (p := B2R (r_ind r1)) in *.
  assert (Pp : Rabs (p - INR i * c) <= INR i * drift).
  { pose proof (position k Hk i r zs r1 (len - 1) Pl E1 HT' HR' B1) as I. fold p in I. rewrite P0, Rplus_0_l in I.
    apply Rabs_le_inv in I. apply Rabs_le.
    assert (INR i * (c * (1 - bpow radix2 (-22))) <= INR i * B2R (step r) <= INR i * (c * (1 + bpow radix2 (-22))))
      by (split; apply Rmult_le_compat_l; lra).
    unfold drift in *. lra. }
  assert (L0 : 0 <= L) by (destruct Sm as (g1 & g2 & _ & X); pose proof (Rabs_pos (g1 0)); destruct (X 0); lra).
  assert (Lp' : Rabs (g p - g (INR i * c)) <= L * (INR i * drift)).
  { eapply Rle_trans; [exact (smooth_lip L M g (INR i * c) p Sm)|]. apply Rmult_le_compat_l; assumption. }
  exists p. split; [exact Pp|]. split; [exact Fy|].
  apply Rabs_le_inv in Lp', B. unfold D. split; [intro NB; specialize (A NB); apply Rabs_le_inv in A|]; apply Rabs_le; split; lra.
Qed.

Lemma tone_playback e k data (rate speed : f64) n ys r' F w eps : (-124 <= e <= 125)%Z -> within e data -> (0 <= k <= 24)%Z ->
  (Z.of_nat (length data) <= 2 ^ k)%Z -> fin rate -> 1 <= B2R rate <= 1048576 ->
  fin speed -> / 1048576 <= B2R speed <= 1048576 -> 0 <= F ->
  let om := 2 * PI * F / B2R rate in
  recording eps (rtone om w) data ->
  rcalls n (player data rate speed) = Ok (ys, r') ->
  let c := B2R rate * B2R speed / 48000 in let len := IZR (Z.of_nat (length data)) in
  let drift := c * bpow radix2 (-22) + bpow radix2 (k - 25) in
  let D i := bpow radix2 (e - 22) + eps + modulus w * (om * om / 8 + om * (INR i * drift)) in
  forall i, (i < n)%nat -> INR i * (c + drift) < len - 1 ->
    exists p, Rabs (p - INR i * c) <= INR i * drift /\ is_finite (nth i ys f0) = true /\
      (~ below_power p -> Rabs (B2R (nth i ys f0) - tone (rad (F * B2R speed)) w i) <= D i) /\
      Rabs (B2R (nth i ys f0) - tone (rad (F * B2R speed)) w i) <= D i + modulus w * om.
Proof.
  intros He W Hk HL Fr Hr Fs Hs HF om Rc E c len drift D i Hi Q.
  assert (O0 : 0 <= om) by (unfold om; apply Rmult_le_pos; [pose proof PI_RGT_0; nra|left; apply Rinv_0_lt_compat; lra]).
  destruct (smooth_playback e k data rate speed n ys r' _ _ _ eps He W Hk HL Fr Hr Fs Hs (rtone_smooth om w O0) Rc E i Hi Q) as (p & P & Fy & A & B).
  exists p. split; [exact P|]. split; [exact Fy|]. fold c in A, B. fold drift in A, B.
  assert (Eg : rtone om w (INR i * c) = tone (rad (F * B2R speed)) w i).
  { rewrite rtone_scale. replace (om * c) with (rad (F * B2R speed)); [reflexivity|]. unfold om, c, rad. field. lra. }
  rewrite Eg in A, B. split.
  - intro NB. specialize (A NB). unfold D. lra.
  - unfold D. lra.
Qed.
