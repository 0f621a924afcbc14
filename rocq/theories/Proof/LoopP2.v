(** * Looped playback of recorded curves: the two kinds of steps *)
From Coq Require Import ZArith List Bool Reals Lra Lia Psatz.
From Flocq Require Import Core.Core IEEE754.BinarySingleNaN.
From Verif Require Import Model.Floats Model.Mono Model.Wav Model.Resampler Spec.Playback Spec.Response Spec.Pitch Spec.Loop
  Proof.FloatFacts Proof.SampleFormatP Proof.WavP Proof.ResamplerP Proof.ResamplerP2 Proof.ResamplerP3 Proof.PlayP Proof.PitchP Proof.LoopP.
Import ListNotations.
Local Open Scope R_scope.

Lemma looper_eq data rate ls le speed : (ls <= le)%Z -> looper data rate ls le speed = mkRes data f0 (to32 (fmul rate INV_SAMPLE_RATE)) speed ls le.
Proof. intro H. unfold looper, resampler_new. destruct (Z.ltb_spec le ls); [lia|]. reflexivity. Qed.
Lemma smooth_L0 L M g : smooth L M g -> 0 <= L.
Proof. intros (g1 & g2 & _ & X). pose proof (Rabs_pos (g1 0)). destruct (X 0). lra. Qed.
(** any step: the position drifts by at most half a unit in the last place per call *)
Lemma loop_drift e k data (rate speed : f64) ls le L M g eps n : let len := Z.of_nat (length data) in
  (-124 <= e <= 125)%Z -> within e data -> (0 <= ls < le)%Z -> (le < len)%Z -> (len <= 2 ^ 23)%Z -> (0 <= k <= 23)%Z -> (le <= 2 ^ k)%Z ->
  (forall q, (0 <= q <= 22)%Z -> le = (2 ^ q)%Z -> len <> (2 ^ q + 1)%Z) ->
  fin rate -> 1 <= B2R rate <= 1048576 -> fin speed -> / 1048576 <= B2R speed <= 1048576 ->
  let c := B2R rate * B2R speed / 48000 in let drift := c * bpow radix2 (-22) + bpow radix2 (k - 24) in
  c * (1 + bpow radix2 (-22)) <= IZR (le - ls - 1) ->
  smooth L M g -> recording eps g data -> repeats (le - ls) g ->
  exists ys r', rcalls n (looper data rate ls le speed) = Ok (ys, r') /\ length ys = n /\
    forall i, (i < n)%nat -> exists p m, 0 <= p < IZR le /\ Rabs (p - (INR i * c - IZR m * IZR (le - ls))) <= INR i * drift /\ is_finite (nth i ys f0) = true /\
      let D := bpow radix2 (e - 22) + eps + M / 8 + L * (INR i * drift) in
      (~ below_power p -> Rabs (B2R (nth i ys f0) - g (INR i * c)) <= D) /\ Rabs (B2R (nth i ys f0) - g (INR i * c)) <= D + L.
Proof.
  intros len He W H1 H2 H3 Hk HL NP Fr Hr Fs Hs c drift Hc Sm Rc Rp.
  destruct (step_near data rate speed Fr Hr Fs Hs) as (A & B). fold c in B.
  set (inc := to32 (fmul rate INV_SAMPLE_RATE) : f32).
  assert (Est : step (player data rate speed) = step_of inc speed) by reflexivity. rewrite Est in A, B.
  set (s := B2R (step_of inc speed)) in *.
  assert (C0 : 0 <= c) by (unfold c; apply Rmult_le_pos; [apply Rmult_le_pos; lra|lra]).
  assert (P22 : 0 < bpow radix2 (-22) < 1) by (change (bpow radix2 (-22)) with (/ 4194304); lra).
  assert (S0 : 0 <= s <= IZR (le - ls - 1)) by (split; [eapply Rle_trans; [|apply (proj1 B)]; apply Rmult_le_pos; lra|lra]).
  assert (GS : good_step inc ls le speed) by (split; assumption).
  destruct (loop_curve data ls le H1 H2 H3 NP inc speed GS (fun _ => True) (bpow radix2 (k - 24))) with (e := e) (L := L) (M := M) (g := g) (eps := eps) (n := n) as (ys & r' & E & Ly & Q); try assumption; try (intros; exact I).
  { intros p _ Hp. split; [|exact I]. fold s. replace (k - 24)%Z with (k + 1 - 24 - 1)%Z by ring.
    apply (rnd_err (prec:=24) (emax:=128) (k + 1)); [unfold SpecFloat.emin; lia|]. rewrite Rabs_pos_eq by lra.
    assert (IZR le <= bpow radix2 k) by (rewrite <- IZR_pow2 by lia; apply IZR_le; exact HL).
    assert (IZR (le - ls - 1) <= IZR le) by (apply IZR_le; lia). rewrite bpow_plus. change (bpow radix2 1) with 2. lra. }
  rewrite looper_eq by lia. exists ys, r'. split; [exact E|]. split; [exact Ly|]. intros i Hi. destruct (Q i Hi) as (p & m & P1 & P2 & Fy & Q1 & Q2).
  fold s in P2, Q1, Q2. exists p, m. split; [exact P1|].
  assert (I0 : 0 <= INR i) by apply pos_INR.
  assert (SC : Rabs (INR i * s - INR i * c) <= INR i * (c * bpow radix2 (-22))).
  { replace (INR i * s - INR i * c) with (INR i * (s - c)) by ring. rewrite Rabs_mult, (Rabs_pos_eq (INR i)) by exact I0. apply Rmult_le_compat_l; [exact I0|]. apply Rabs_le. lra. }
  pose proof (smooth_L0 _ _ _ Sm) as L0.
  assert (GL : Rabs (g (INR i * s) - g (INR i * c)) <= L * (INR i * (c * bpow radix2 (-22)))).
  { eapply Rle_trans; [exact (smooth_lip L M g _ _ Sm)|]. apply Rmult_le_compat_l; assumption. }
  assert (Ed : L * (INR i * drift) = L * (INR i * (c * bpow radix2 (-22))) + L * (INR i * bpow radix2 (k - 24))) by (unfold drift; ring).
  split; [|split; [exact Fy|]].
  - apply Rabs_le_inv in P2, SC. unfold drift. apply Rabs_le. lra.
  - cbn zeta. rewrite Ed. apply Rabs_le_inv in GL, Q2. split; [intro NB; specialize (Q1 NB); apply Rabs_le_inv in Q1|]; apply Rabs_le; lra.
Qed.

(** a multiple of 2^q below 2^(q+24) is a float *)
Lemma grid_fmt q x : (-149 <= q <= 100)%Z -> on_grid q x -> Rabs x <= bpow radix2 (q + 24) -> rnd32 x = x.
Proof.
  intros Hq [z E] H. apply (rnd_fmt (prec:=24) (emax:=128)). rewrite E.
  destruct (Req_dec (Rabs x) (bpow radix2 (q + 24))) as [T|T].
  - assert (Z.abs z = 2 ^ 24)%Z.
    { apply eq_IZR. rewrite abs_IZR, IZR_pow2 by lia. apply Rmult_eq_reg_r with (bpow radix2 q); [|apply Rgt_not_eq, bpow_gt_0].
      rewrite <- bpow_plus, Z.add_comm, <- T, E, Rabs_mult, (Rabs_pos_eq (bpow radix2 q)) by apply bpow_ge_0. reflexivity. }
    assert (Z' : z = (2 ^ 24)%Z \/ z = (- 2 ^ 24)%Z) by lia.
    assert (FB : fmt32 (bpow radix2 (q + 24))) by (apply generic_format_bpow; unfold SpecFloat.fexp, SpecFloat.emin; lia).
    destruct Z' as [-> | ->].
    + rewrite IZR_pow2, <- bpow_plus, Z.add_comm by lia. exact FB.
    + rewrite opp_IZR, IZR_pow2 by lia. rewrite Ropp_mult_distr_l_reverse, <- bpow_plus, Z.add_comm. apply generic_format_opp. exact FB.
  - apply generic_format_FLT. exists (Float radix2 z q); [reflexivity| |cbn; unfold SpecFloat.emin; lia].
    cbn [Fnum]. apply lt_IZR. rewrite abs_IZR. change (IZR (radix2 ^ 24)) with (IZR (2 ^ 24)). rewrite IZR_pow2 by lia.
    apply Rmult_lt_reg_r with (bpow radix2 q); [apply bpow_gt_0|]. rewrite <- bpow_plus, (Z.add_comm 24).
    replace (Rabs (IZR z) * bpow radix2 q) with (Rabs x); [lra|]. rewrite E, Rabs_mult, (Rabs_pos_eq (bpow radix2 q)) by apply bpow_ge_0. reflexivity.
Qed.
Lemma grid_add q x y : on_grid q x -> on_grid q y -> on_grid q (x + y).
Proof. intros [a ->] [b ->]. exists (a + b)%Z. rewrite plus_IZR. ring. Qed.
Lemma grid_int q z : (q <= 0)%Z -> on_grid q (IZR z).
Proof. intro H. exists (z * 2 ^ (- q))%Z. rewrite mult_IZR, IZR_pow2 by lia. rewrite Rmult_assoc, <- bpow_plus. replace (- q + q)%Z with 0%Z by ring. simpl. ring. Qed.
Lemma grid_not_below k p : (0 <= k <= 23)%Z -> p < bpow radix2 k -> on_grid (k - 23) p -> ~ below_power p.
Proof.
  intros Hk Hp [z E] (q & Hq & B).
  assert (Q : (q <= k)%Z).
  { destruct (Z.le_gt_cases q k) as [|K]; [assumption|]. exfalso.
    assert (bpow radix2 (q - 24) <= bpow radix2 (q - 1)) by (apply bpow_le; lia). assert (bpow radix2 k <= bpow radix2 (q - 1)) by (apply bpow_le; lia).
    replace (bpow radix2 q) with (2 * bpow radix2 (q - 1)) in B; [lra|]. change 2 with (bpow radix2 1). rewrite <- bpow_plus. f_equal. ring. }
  (* times 2^(24-q): an odd number against an even one *)
  assert (X : IZR z * bpow radix2 (k - 23 + (24 - q)) = bpow radix2 24 - 1).
  { rewrite bpow_plus, <- Rmult_assoc, <- E, B, Rmult_minus_distr_r, <- !bpow_plus. replace (q + (24 - q))%Z with 24%Z by ring. replace (q - 24 + (24 - q))%Z with 0%Z by ring. reflexivity. }
  rewrite <- IZR_pow2 in X by lia. rewrite <- mult_IZR in X. change (bpow radix2 24 - 1) with (IZR 16777216 - IZR 1) in X. rewrite <- minus_IZR in X. apply eq_IZR in X.
  replace (k - 23 + (24 - q))%Z with (1 + (k - q))%Z in X by ring. rewrite Z.pow_add_r in X by lia. change (2 ^ 1)%Z with 2%Z in X. lia.
Qed.
(** a step on the grid of the loop's last sample: no drift, ever *)
Lemma loop_grid e k data (rate speed : f64) ls le L M g eps n : let len := Z.of_nat (length data) in
  (-124 <= e <= 125)%Z -> within e data -> (0 <= ls < le)%Z -> (le < len)%Z -> (len <= 2 ^ 23)%Z -> (0 <= k <= 23)%Z -> (le <= 2 ^ k)%Z ->
  (forall q, (0 <= q <= 22)%Z -> le = (2 ^ q)%Z -> len <> (2 ^ q + 1)%Z) ->
  let r := looper data rate ls le speed in let s := B2R (step r) in
  is_finite (step r) = true -> 0 <= s <= IZR (le - ls - 1) -> on_grid (k - 23) s ->
  smooth L M g -> recording eps g data -> repeats (le - ls) g ->
  exists ys r', rcalls n r = Ok (ys, r') /\ length ys = n /\
    forall i, (i < n)%nat -> is_finite (nth i ys f0) = true /\ Rabs (B2R (nth i ys f0) - g (INR i * s)) <= bpow radix2 (e - 22) + eps + M / 8.
Proof.
  intros len He W H1 H2 H3 Hk HL NP r s Fs Hs Gr Sm Rc Rp. unfold s, r in *. rewrite looper_eq in * by lia. clear s r. set (r := mkRes data _ _ speed ls le) in *. set (s := B2R (step r)) in *.
  set (inc := to32 (fmul rate INV_SAMPLE_RATE) : f32).
  assert (GS : good_step inc ls le speed) by (split; assumption).
  assert (LB : IZR le <= bpow radix2 k) by (rewrite <- IZR_pow2 by lia; apply IZR_le; exact HL).
  assert (LE : IZR (le - ls - 1) <= IZR le) by (apply IZR_le; lia).
  assert (NA : forall p, on_grid (k - 23) p -> 0 <= p < IZR le -> rnd32 (p + s) = p + s).
  { intros p Gp Hp. apply (grid_fmt (k - 23)); [lia|apply grid_add; assumption|]. rewrite Rabs_pos_eq by lra. replace (k - 23 + 24)%Z with (k + 1)%Z by ring. rewrite bpow_plus. change (bpow radix2 1) with 2. lra. }
  assert (GM : forall p m, on_grid (k - 23) p -> on_grid (k - 23) (p - IZR m * IZR (le - ls))).
  { intros p m Gp. rewrite <- mult_IZR. unfold Rminus. rewrite <- opp_IZR. apply grid_add; [exact Gp|apply grid_int; lia]. }
  destruct (loop_curve data ls le H1 H2 H3 NP inc speed GS (on_grid (k - 23)) 0) with (e := e) (L := L) (M := M) (g := g) (eps := eps) (n := n) as (ys & r' & E & Ly & Q); try assumption.
  { intros p Gp Hp. change (B2R (step_of inc speed)) with s. rewrite (NA p Gp Hp), Rminus_diag_eq, Rabs_R0 by reflexivity. split; [lra|]. apply grid_add; assumption. }
  { exists 0%Z. ring. }
  exists ys, r'. split; [exact E|]. split; [exact Ly|]. intros i Hi. destruct (Q i Hi) as (p & m & P1 & P2 & Fy & Q1 & _).
  split; [exact Fy|]. change (B2R (step_of inc speed)) with s in P2, Q1. rewrite Rmult_0_r in P2, Q1. cbn zeta in Q1. rewrite Rmult_0_r, Rplus_0_r in Q1.
  apply Q1. apply (grid_not_below k); [exact Hk|lra|].
  assert (Ep : p = INR i * s - IZR m * IZR (le - ls)) by (apply Rabs_le_inv in P2; lra). rewrite Ep. apply GM.
  destruct Gr as [z Ez]. exists (Z.of_nat i * z)%Z. rewrite mult_IZR, <- INR_IZR_INZ, Ez. ring.
Qed.
(** tones *)
Lemma rtone_repeats om w l j : om * IZR l = 2 * PI * IZR j -> repeats l (rtone om w).
Proof.
  intros H t. unfold rtone. rewrite Rmult_plus_distr_l, H.
  assert (N : forall (k : nat) x, cos (x + 2 * PI * INR k) = cos x /\ sin (x + 2 * PI * INR k) = sin x).
  { intros k x. replace (x + 2 * PI * INR k) with (x + 2 * INR k * PI) by ring. split; [apply cos_period|apply sin_period]. }
  destruct (Z.le_gt_cases 0 j) as [K|K].
  - destruct (N (Z.to_nat j) (om * t)) as [A B]. rewrite INR_IZR_INZ, Z2Nat.id in A, B by exact K. rewrite A, B. reflexivity.
  - destruct (N (Z.to_nat (- j)) (om * t + 2 * PI * IZR j)) as [A B]. rewrite INR_IZR_INZ, Z2Nat.id, opp_IZR in A, B by lia.
    replace (om * t + 2 * PI * IZR j + 2 * PI * - IZR j) with (om * t) in A, B by ring. rewrite <- A, <- B. reflexivity.
Qed.
Lemma loop_tone e k data (rate speed : f64) ls le F w eps (j : Z) n : let len := Z.of_nat (length data) in
  (-124 <= e <= 125)%Z -> within e data -> (0 <= ls < le)%Z -> (le < len)%Z -> (len <= 2 ^ 23)%Z -> (0 <= k <= 23)%Z -> (le <= 2 ^ k)%Z ->
  (forall q, (0 <= q <= 22)%Z -> le = (2 ^ q)%Z -> len <> (2 ^ q + 1)%Z) ->
  fin rate -> 1 <= B2R rate <= 1048576 -> fin speed -> / 1048576 <= B2R speed <= 1048576 -> 0 <= F ->
  let om := 2 * PI * F / B2R rate in let c := B2R rate * B2R speed / 48000 in let drift := c * bpow radix2 (-22) + bpow radix2 (k - 24) in
  c * (1 + bpow radix2 (-22)) <= IZR (le - ls - 1) ->
  recording eps (rtone om w) data -> F * IZR (le - ls) = IZR j * B2R rate ->
  exists ys r', rcalls n (looper data rate ls le speed) = Ok (ys, r') /\ length ys = n /\
    forall i, (i < n)%nat -> exists p m, 0 <= p < IZR le /\ Rabs (p - (INR i * c - IZR m * IZR (le - ls))) <= INR i * drift /\ is_finite (nth i ys f0) = true /\
      let D := bpow radix2 (e - 22) + eps + modulus w * (om * om / 8 + om * (INR i * drift)) in
      (~ below_power p -> Rabs (B2R (nth i ys f0) - tone (rad (F * B2R speed)) w i) <= D) /\
      Rabs (B2R (nth i ys f0) - tone (rad (F * B2R speed)) w i) <= D + modulus w * om.
Proof.
  intros len He W H1 H2 H3 Hk HL NP Fr Hr Fs Hs HF om c drift Hc Rc Hj.
  assert (O0 : 0 <= om) by (unfold om; apply Rmult_le_pos; [pose proof PI_RGT_0; nra|left; apply Rinv_0_lt_compat; lra]).
  assert (Rp : repeats (le - ls) (rtone om w)).
  { apply (rtone_repeats om w (le - ls) j). unfold om. replace (2 * PI * F / B2R rate * IZR (le - ls)) with (2 * PI * (F * IZR (le - ls)) / B2R rate) by (unfold Rdiv; ring). rewrite Hj. field. lra. }
  destruct (loop_drift e k data rate speed ls le _ _ _ eps n He W H1 H2 H3 Hk HL NP Fr Hr Fs Hs Hc (rtone_smooth om w O0) Rc Rp) as (ys & r' & E & Ly & Q).
  exists ys, r'. split; [exact E|]. split; [exact Ly|]. intros i Hi. destruct (Q i Hi) as (p & m & P1 & P2 & Fy & A & B). fold c drift in P2, A, B.
  exists p, m. split; [exact P1|]. split; [exact P2|]. split; [exact Fy|].
  assert (Eg : rtone om w (INR i * c) = tone (rad (F * B2R speed)) w i).
  { rewrite rtone_scale. replace (om * c) with (rad (F * B2R speed)); [reflexivity|]. unfold om, c, rad. field. lra. }
  cbn zeta in A, B |- *. rewrite Eg in A, B. split; [intro NB; specialize (A NB)|]; lra.
Qed.
(** 48 kHz tracks at speeds on the grid: the tone goes on for ever *)
Lemma loop_tone_grid e k data (speed : f64) ls le F w eps (j : Z) n : let len := Z.of_nat (length data) in
  (-124 <= e <= 125)%Z -> within e data -> (0 <= ls < le)%Z -> (le < len)%Z -> (len <= 2 ^ 23)%Z -> (0 <= k <= 23)%Z -> (le <= 2 ^ k)%Z ->
  (forall q, (0 <= q <= 22)%Z -> le = (2 ^ q)%Z -> len <> (2 ^ q + 1)%Z) ->
  fin speed -> 0 <= B2R speed <= IZR (le - ls - 1) -> on_grid (k - 23) (B2R speed) -> 0 <= F ->
  recording eps (rtone (rad F) w) data -> F * IZR (le - ls) = IZR j * 48000 ->
  exists ys r', rcalls n (looper data (of_Z 48000) ls le speed) = Ok (ys, r') /\ length ys = n /\
    forall i, (i < n)%nat -> is_finite (nth i ys f0) = true /\
      Rabs (B2R (nth i ys f0) - tone (rad (F * B2R speed)) w i) <= bpow radix2 (e - 22) + eps + modulus w * (rad F * rad F / 8).
Proof.
  intros len He W H1 H2 H3 Hk HL NP Fs Hs Gr HF Rc Hj.
  assert (O0 : 0 <= rad F) by (unfold rad; apply Rmult_le_pos; [pose proof PI_RGT_0; nra|lra]).
  assert (Rp : repeats (le - ls) (rtone (rad F) w)).
  { apply (rtone_repeats _ w (le - ls) j). unfold rad. replace (2 * PI * F / 48000 * IZR (le - ls)) with (2 * PI * (F * IZR (le - ls)) / 48000) by (unfold Rdiv; ring). rewrite Hj. field. }
  assert (LB : IZR le <= bpow radix2 k) by (rewrite <- IZR_pow2 by lia; apply IZR_le; exact HL).
  assert (LE : IZR (le - ls - 1) <= IZR le) by (apply IZR_le; lia).
  assert (KB : bpow radix2 k <= bpow radix2 (k - 23 + 24)) by (apply bpow_le; lia).
  assert (RS : rnd32 (B2R speed) = B2R speed) by (apply (grid_fmt (k - 23)); [lia|exact Gr|]; rewrite Rabs_pos_eq by lra; lra).
  assert (B128 : bpow radix2 k < bpow radix2 128) by (apply bpow_lt; lia).
  assert (T : fin (to32 speed) /\ B2R (to32 speed) = B2R speed).
  { destruct (fcast_ok (p1:=53) (e1:=1024) (p2:=24) (e2:=128) speed Fs) as [A B]; [rewrite RS, Rabs_pos_eq by lra; lra|]. split; [exact A|]. etransitivity; [exact B|exact RS]. }
  destruct T as [T1 T2].
  assert (St : fin (fmul (of_Z 1 : f32) (to32 speed)) /\ B2R (fmul (of_Z 1 : f32) (to32 speed)) = B2R speed).
  { destruct (of_Z32 1 ltac:(lia)) as [F1 V1]. destruct (fmul_ok (of_Z 1 : f32) (to32 speed) F1 T1) as [A B].
    - rewrite V1, Rmult_1_l, T2, RS, Rabs_pos_eq by lra. lra.
    - split; [exact A|]. rewrite B, V1, Rmult_1_l, T2. exact RS. }
  destruct St as [S1 S2].
  assert (Est : step (looper data (of_Z 48000) ls le speed) = fmul (of_Z 1) (to32 speed)).
  { rewrite looper_eq by lia. unfold step. cbn [r_inc r_speed]. change (fmul (to32 (fmul (of_Z 48000) INV_SAMPLE_RATE)) (to32 speed)) with (fmul (to32 (fmul (of_Z 48000) INV_SAMPLE_RATE)) (to32 speed)). rewrite unity_inc. reflexivity. }
  set (r := looper data (of_Z 48000) ls le speed) in *.
  assert (G1 : is_finite (step r) = true) by (rewrite Est; exact S1). assert (G2 : B2R (step r) = B2R speed) by (rewrite Est; exact S2).
  assert (G3 : 0 <= B2R (step r) <= IZR (le - ls - 1)) by (rewrite G2; exact Hs). assert (G4 : on_grid (k - 23) (B2R (step r))) by (rewrite G2; exact Gr).
  destruct (loop_grid e k data (of_Z 48000) speed ls le _ _ _ eps n He W H1 H2 H3 Hk HL NP G1 G3 G4 (rtone_smooth (rad F) w O0) Rc Rp) as (ys & r' & E & Ly & Q).
  exists ys, r'. split; [exact E|]. split; [exact Ly|]. intros i Hi. destruct (Q i Hi) as (Fy & A). split; [exact Fy|].
  fold r in A. rewrite G2 in A. rewrite rtone_scale in A. replace (rad F * B2R speed) with (rad (F * B2R speed)) in A by (unfold rad; field). change (rtone (rad (F * B2R speed)) w (INR i)) with (tone (rad (F * B2R speed)) w i) in A. lra.
Qed.
