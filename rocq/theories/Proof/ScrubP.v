(** * Proofs about MonoResampler: speeds set before every sample *)

From Coq Require Import ZArith List Bool Reals Lra Lia Psatz.
From Flocq Require Import Core.Core IEEE754.BinarySingleNaN.
From Verif Require Import Model.Floats Model.Mono Model.Wav Model.Resampler Spec.Playback Spec.Loop Spec.Scrub
  Proof.FloatFacts Proof.SampleFormatP Proof.FormatsP Proof.WavP Proof.ResamplerP Proof.ResamplerP2 Proof.ResamplerP3 Proof.GeneratorsP Proof.FormatsVecP Proof.PlayP Proof.LoopP2.
Import ListNotations.
Local Open Scope R_scope.

Lemma mix_zero e (fr x1 x2 : f32) : (-124 <= e <= 125)%Z -> fin fr -> B2R fr = 0 -> fin x1 -> fin x2 ->
  Rabs (B2R x1) <= bpow radix2 e -> Rabs (B2R x2) <= bpow radix2 e -> B2R (mix fr x1 x2) = B2R x1.
Proof.
  intros He Ff Vf F1 F2 H1 H2. unfold mix.
  destruct (fsub_le x2 x1 (bpow radix2 (e + 1)) F2 F1) as (Fd & _ & _).
  { apply fmt32_b; lia. } { apply bpow_lt; lia. }
  { rewrite bpow_plus. change (bpow radix2 1) with 2. apply Rabs_le. apply Rabs_le_inv in H1, H2. lra. }
  destruct (fmul_le fr (fsub x2 x1) 0 Ff Fd) as (Fm & Vm & _).
  { apply generic_format_0. } { apply bpow_gt_0. } { rewrite Vf, Rmult_0_l, Rabs_R0. lra. }
  rewrite Vf, Rmult_0_l, rnd_0 in Vm.
  destruct (fadd_le x1 (fmul fr (fsub x2 x1)) (bpow radix2 e) F1 Fm) as (_ & V & _).
  { apply fmt32_b; lia. } { apply bpow_lt; lia. } { rewrite Vm, Rplus_0_r. exact H1. }
  rewrite V, Vm, Rplus_0_r. apply rnd_fmt, generic_format_B2R.
Qed.

Lemma travelled_nonneg rate ss : Forall (fun s => 0 <= B2R (speed_step rate s)) ss -> 0 <= travelled rate ss.
Proof. induction 1 as [|s ss H _ IH]; cbn [travelled fold_right]; [lra|]. unfold travelled in IH. lra. Qed.

Section Scrub.
Variables (e k : Z) (data : list Mono) (rate : f64).
Hypothesis He : (-124 <= e <= 125)%Z.
Hypothesis W : within e data.
Hypothesis Hk : (0 <= k <= 23)%Z.
Hypothesis HL : (Z.of_nat (length data) <= 2 ^ k)%Z.
Let inc : f32 := to32 (fmul rate INV_SAMPLE_RATE).
Let len : R := IZR (Z.of_nat (length data)).
Definition good (s : f64) : Prop := is_finite (speed_step rate s) = true /\ dyadic k (B2R (speed_step rate s)).
(** the state between two calls *)
Definition at_pos (r : resampler) : Prop := r_data r = data /\ r_inc r = inc /\ r_le r = 0%Z /\ fin (r_ind r) /\ 0 <= B2R (r_ind r).

Lemma L23 : (Z.of_nat (length data) <= 2 ^ 23)%Z.
Proof. eapply Z.le_trans; [exact HL|]. apply Z.pow_le_mono_r; lia. Qed.
Lemma len_le : len <= bpow radix2 k.
Proof. unfold len. rewrite <- IZR_pow2 by lia. apply IZR_le. exact HL. Qed.
Lemma k_small : bpow radix2 k <= bpow radix2 100. Proof. apply bpow_le. lia. Qed.

Lemma at_playing r s : at_pos r -> good s -> playing (set_playback_speed r s) /\ step (set_playback_speed r s) = speed_step rate s.
Proof.
  intros (D & I & L & F & P) (Fs & Hs & _). pose proof k_small. pose proof L23 as L3.
  assert (S : step (set_playback_speed r s) = speed_step rate s) by (unfold step, set_playback_speed; cbn [r_inc r_speed]; rewrite I; reflexivity).
  split; [|exact S]. unfold playing. rewrite S. unfold set_playback_speed. cbn [r_le r_ind r_data]. rewrite D.
  repeat split; try assumption; try lra; try (apply Z.le_trans with (1 := L3); lia); apply Hs.
Qed.

(** once past the end *)
Lemma past_end ss : forall r, at_pos r -> Forall good ss -> len <= B2R (r_ind r) ->
  exists ys r', rrun (turning ss) r = Ok (ys, r') /\ length ys = length ss /\ forall i, (i < length ss)%nat -> nth i ys f0 = f0.
Proof.
  induction ss as [|s ss IH]; intros r A G Q.
  - exists [], r. split; [reflexivity|]. split; [reflexivity|]. intros i Hi. exfalso. inversion Hi.
  - inversion_clear G as [|? ? G1 G2]. destruct (at_playing r s A G1) as [Pl S].
    pose proof A as (D & I & L & F & P).
    assert (A' : at_pos (set_playback_speed r s)) by (repeat split; assumption).
    assert (E : resampler_process (set_playback_speed r s) = Ok (f0, set_playback_speed r s)).
    { unfold resampler_process. cbn [set_playback_speed r_data r_ind r_le]. rewrite D, L.
      destruct (Z.leb_spec (Z.of_nat (length data)) (to_usize (r_ind r))) as [X|X]; [reflexivity|].
      exfalso. apply (usize_lt (r_ind r) (Z.of_nat (length data))) in X; try assumption; [fold len in X; lra|].
      pose proof L23. lia. }
    destruct (IH (set_playback_speed r s) A' G2 Q) as (ys & r' & E1 & E2 & E3).
    exists (f0 :: ys), r'. split; [|split; [cbn; congruence|]].
    + cbn [turning flat_map app rrun]. rewrite E. cbn [bind]. fold (turning ss). rewrite E1. reflexivity.
    + intros [|i] Hi; [reflexivity|]. cbn in Hi |- *. apply E3. lia.
Qed.

(** one call before the end *)
Lemma call_on_grid r s : at_pos r -> good s -> on_grid (k - 23) (B2R (r_ind r)) -> B2R (r_ind r) < len ->
  exists y r', resampler_process (set_playback_speed r s) = Ok (y, r') /\ at_pos r' /\
    B2R (r_ind r') = B2R (r_ind r) + B2R (speed_step rate s) /\
    fin y /\ Rabs (B2R y - interpolated data (B2R (r_ind r))) <= bpow radix2 (e - 22) /\
    (forall z, B2R (r_ind r) = IZR z -> B2R y = held data z).
Proof.
  intros A Gs Gr Q. destruct (at_playing r s A Gs) as [Pl S]. pose proof A as (D & I & L & F & P). pose proof L23 as L3. pose proof len_le as LL.
  assert (NB : ~ below_power (B2R (r_ind r))) by (apply (grid_not_below k); [exact Hk|lra|exact Gr]).
  set (r1 := set_playback_speed r s) in *.
  assert (D1 : r_data r1 = data) by exact D. assert (L1 : r_le r1 = 0%Z) by exact L.
  change (r_ind r) with (r_ind r1) in *.
  destruct (resampler_process r1) as [[y r']|] eqn:E.
  2:{ exfalso. apply process_nl_panic_iff in E; [|exact L1|rewrite D1; lia]. destruct E as (q & Hq & _ & _ & B). apply NB. exists q. split; [exact Hq|exact B]. }
  assert (Q1 : B2R (r_ind r1) < IZR (Z.of_nat (length (r_data r1)))) by (rewrite D1; exact Q).
  exists y, r'. split; [reflexivity|].
  destruct (process_step _ _ _ Pl E) as [(_ & Er)|(X & _)]; [|lra].
  destruct (advance_pos _ Pl Q1) as (P2 & B & S2 & D2). rewrite <- Er in P2, B, S2, D2.
  assert (I2 : r_inc r' = inc) by (rewrite Er; unfold advance; destruct (_ && _); exact I).
  destruct Gs as (Fs & Hs & Gs).
  split; [destruct P2 as (X1 & X2 & X3 & _); repeat split; try assumption; congruence|].
  split. { rewrite B, S. apply (grid_fmt (k - 23)); [lia|apply grid_add; assumption|]. rewrite Rabs_pos_eq by lra. replace (k - 23 + 24)%Z with (k + 1)%Z by ring. rewrite bpow_plus. change (bpow radix2 1) with 2. lra. }
  assert (W1 : within e (r_data r1)) by (rewrite D1; exact W).
  destruct (interpolates e r1 y r' He W1 Pl ltac:(rewrite D1; lia) Q1 E) as [Fy V].
  split; [exact Fy|]. split; [rewrite <- D1; exact (V NB)|].
  intros z Ez. destruct (process_value r1 y r' Pl ltac:(rewrite D1; lia) Q1 E) as (Iz & ->).
  rewrite Ez, Zfloor_IZR in *. rewrite D1 in *.
  destruct (ftrunc_ok (r_ind r1) F) as [Ft Vt]. rewrite Ez, Ztrunc_IZR in Vt.
  destruct (fsub_le (r_ind r1) (ftrunc (r_ind r1)) 0 F Ft) as (Ff & Vf & _).
  { apply generic_format_0. } { apply bpow_gt_0. } { rewrite Vt, Ez, Rminus_diag_eq, Rabs_R0 by reflexivity. lra. }
  rewrite Vt, Ez, Rminus_diag_eq, rnd_0 in Vf by reflexivity.
  match goal with |- B2R (mix _ ?a (sample_at _ ?j)) = _ =>
    destruct (within_at e data (Z.to_nat z) W) as [F1 H1]; destruct (within_at e data j W) as [F2 H2];
    rewrite (mix_zero e (ffract (r_ind r1)) a (sample_at data j) He Ff Vf F1 F2 H1 H2) end.
  apply sample_held. exact Iz.
Qed.

Lemma scrub_run ss : forall r, at_pos r -> on_grid (k - 23) (B2R (r_ind r)) -> Forall good ss ->
  exists ys r', rrun (turning ss) r = Ok (ys, r') /\ length ys = length ss /\
    forall i, (i < length ss)%nat -> let p := B2R (r_ind r) + travelled rate (firstn i ss) in
      (p < len -> is_finite (nth i ys f0) = true /\ Rabs (B2R (nth i ys f0) - interpolated data p) <= bpow radix2 (e - 22) /\
         (forall z, p = IZR z -> B2R (nth i ys f0) = held data z)) /\
      (len <= p -> nth i ys f0 = f0).
Proof.
  induction ss as [|s ss IH]; intros r A Gr G.
  - exists [], r. split; [reflexivity|]. split; [reflexivity|]. intros i Hi. exfalso. inversion Hi.
  - destruct (Rlt_le_dec (B2R (r_ind r)) len) as [Q|Q].
    + inversion_clear G as [|? ? G1 G2].
      destruct (call_on_grid r s A G1 Gr Q) as (y & r1 & E & A1 & B1 & Fy & V1 & V2).
      destruct (IH r1 A1) as (ys & r' & E1 & E2 & E3); [rewrite B1; apply grid_add; [exact Gr|apply G1]|exact G2|].
      exists (y :: ys), r'. split; [|split; [cbn; congruence|]].
      * cbn [turning flat_map app rrun]. rewrite E. cbn [bind]. fold (turning ss). rewrite E1. reflexivity.
      * intros [|i] Hi p.
        { unfold p. cbn [firstn travelled fold_right nth]. rewrite Rplus_0_r. split; [auto|lra]. }
        cbn [length] in Hi. assert (Hi' : (i < length ss)%nat) by lia.
        assert (Ep : p = B2R (r_ind r1) + travelled rate (firstn i ss)) by (unfold p; rewrite B1; cbn [firstn travelled fold_right]; unfold travelled; ring).
        rewrite Ep. exact (E3 i Hi').
    + destruct (past_end (s :: ss) r A G Q) as (ys & r' & E1 & E2 & E3).
      exists ys, r'. split; [exact E1|]. split; [exact E2|]. intros i Hi p.
      assert (0 <= travelled rate (firstn i (s :: ss))).
      { apply travelled_nonneg. rewrite Forall_forall in G |- *. intros x Hx. apply G. rewrite <- (firstn_skipn i (s :: ss)). apply in_or_app. left. exact Hx. }
      split; [unfold p; lra|]. intros _. exact (E3 i Hi).
Qed.
End Scrub.

Lemma scrub e k data (rate : f64) ss : (-124 <= e <= 125)%Z -> within e data -> (0 <= k <= 23)%Z -> (Z.of_nat (length data) <= 2 ^ k)%Z ->
  (forall s, In s ss -> is_finite (speed_step rate s) = true /\ dyadic k (B2R (speed_step rate s))) ->
  let len := IZR (Z.of_nat (length data)) in
  exists ys r', rrun (turning ss) (resampler_new data rate 0 0) = Ok (ys, r') /\ length ys = length ss /\
    forall i, (i < length ss)%nat -> let p := travelled rate (firstn i ss) in
      (p < len -> is_finite (nth i ys f0) = true /\ Rabs (B2R (nth i ys f0) - interpolated data p) <= bpow radix2 (e - 22) /\
         (forall z, p = IZR z -> B2R (nth i ys f0) = held data z)) /\
      (len <= p -> nth i ys f0 = f0).
Proof.
  intros He W Hk HL G len.
  assert (Z0 : B2R (r_ind (resampler_new data rate 0 0)) = 0) by reflexivity.
  destruct (scrub_run e k data rate He W Hk HL ss (resampler_new data rate 0 0)) as (ys & r' & E1 & E2 & E3).
  - repeat split. rewrite Z0. lra.
  - exists 0%Z. rewrite Z0. ring.
  - rewrite Forall_forall. exact G.
  - exists ys, r'. split; [exact E1|]. split; [exact E2|]. intros i Hi p. pose proof (E3 i Hi) as X. cbn zeta in X. rewrite Z0, Rplus_0_l in X. exact X.
Qed.

(** ** recordings at the engine's own rate *)
Lemma own_rate k (s : f64) : (0 <= k <= 23)%Z -> is_finite s = true -> dyadic k (B2R s) ->
  is_finite (speed_step (of_Z 48000) s) = true /\ B2R (speed_step (of_Z 48000) s) = B2R s.
Proof.
  intros Hk F (H & G). unfold speed_step. rewrite unity_inc.
  assert (Bk : bpow radix2 k < bpow radix2 (k - 23 + 24)) by (apply bpow_lt; lia).
  assert (X : rnd32 (B2R s) = B2R s) by (apply (grid_fmt (k - 23)); [lia|exact G|rewrite Rabs_pos_eq; lra]).
  destruct (fcast_le (p2:=24) (e2:=128) s (bpow radix2 k) F) as (A & B & _).
  { apply fmt32_b; lia. } { apply bpow_lt; lia. } { rewrite Rabs_pos_eq; lra. }
  change (fin (to32 s)) in A. change (B2R (to32 s) = rnd32 (B2R s)) in B. rewrite X in B.
  destruct (of_Z32 1 ltac:(lia)) as [F1 V1].
  destruct (fmul_le (of_Z 1 : f32) (to32 s) (bpow radix2 k) F1 A) as (C & D & _).
  { apply fmt32_b; lia. } { apply bpow_lt; lia. } { rewrite V1, Rmult_1_l, B, Rabs_pos_eq; lra. }
  split; [exact C|]. rewrite D, V1, Rmult_1_l, B. exact X.
Qed.
Definition distance (ss : list f64) : R := fold_right (fun s a => B2R s + a) 0 ss.
Lemma travelled_own k ss : (0 <= k <= 23)%Z -> (forall s, In s ss -> is_finite s = true /\ dyadic k (B2R s)) -> travelled (of_Z 48000) ss = distance ss.
Proof.
  intros Hk G. induction ss as [|s ss IH]; [reflexivity|]. cbn [travelled distance fold_right].
  destruct (G s (or_introl eq_refl)) as [F D]. destruct (own_rate k s Hk F D) as [_ ->]. f_equal. apply IH. intros x Hx. apply G. right. exact Hx.
Qed.
Lemma scrub_own e k data ss : (-124 <= e <= 125)%Z -> within e data -> (0 <= k <= 23)%Z -> (Z.of_nat (length data) <= 2 ^ k)%Z ->
  (forall s, In s ss -> is_finite s = true /\ dyadic k (B2R s)) ->
  let len := IZR (Z.of_nat (length data)) in
  exists ys r', rrun (turning ss) (resampler_new data (of_Z 48000) 0 0) = Ok (ys, r') /\ length ys = length ss /\
    forall i, (i < length ss)%nat -> let p := fold_right (fun s a => B2R s + a) 0 (firstn i ss) in
      (p < len -> is_finite (nth i ys f0) = true /\ Rabs (B2R (nth i ys f0) - interpolated data p) <= bpow radix2 (e - 22) /\
         (forall z, p = IZR z -> B2R (nth i ys f0) = held data z)) /\
      (len <= p -> nth i ys f0 = f0).
Proof.
  intros He W Hk HL G len. destruct (scrub e k data (of_Z 48000) ss He W Hk HL) as (ys & r' & E1 & E2 & E3).
  { intros s Hs. destruct (G s Hs) as [F D]. destruct (own_rate k s Hk F D) as [A ->]. auto. }
  exists ys, r'. split; [exact E1|]. split; [exact E2|]. intros i Hi p. pose proof (E3 i Hi) as X. cbn zeta in X.
  rewrite (travelled_own k) in X; [exact X|exact Hk|].
  intros s Hs. apply G. rewrite <- (firstn_skipn i ss). apply in_or_app. left. exact Hs.
Qed.
(** the same speed all the time *)
Lemma turning_repeat s n : forall r, r_speed r = s -> rrun (turning (repeat s n)) r = rcalls n r.
Proof.
  induction n as [|n IH]; intros r H; [reflexivity|]. unfold rcalls in *. cbn [repeat turning flat_map app rrun].
  assert (E : set_playback_speed r s = r) by (destruct r; cbn in *; subst; reflexivity). rewrite E.
  destruct (resampler_process r) as [[y r1]|] eqn:Q; [|reflexivity]. cbn [bind]. fold (turning (repeat s n)). rewrite IH; [reflexivity|].
  rewrite <- H. apply (process_preserves _ _ _ Q).
Qed.
Lemma distance_repeat s n : fold_right (fun s a => B2R s + a) 0 (repeat s n) = INR n * B2R (s : f64).
Proof. induction n as [|n IH]; [cbn; ring|]. cbn [repeat fold_right]. rewrite IH, S_INR. ring. Qed.
Lemma firstn_rep {A} (a : A) i n : (i <= n)%nat -> firstn i (repeat a n) = repeat a i.
Proof. revert n. induction i as [|i IH]; intros [|n] H; try reflexivity; [lia|]. cbn. f_equal. apply IH. lia. Qed.
Lemma steady e k data (s : f64) n : (-124 <= e <= 125)%Z -> within e data -> (0 <= k <= 23)%Z -> (Z.of_nat (length data) <= 2 ^ k)%Z ->
  is_finite s = true -> dyadic k (B2R s) -> let len := IZR (Z.of_nat (length data)) in
  exists ys r', rcalls n (player data (of_Z 48000) s) = Ok (ys, r') /\ length ys = n /\
    forall i, (i < n)%nat -> let p := INR i * B2R s in
      (p < len -> is_finite (nth i ys f0) = true /\ Rabs (B2R (nth i ys f0) - interpolated data p) <= bpow radix2 (e - 22) /\
         (forall z, p = IZR z -> B2R (nth i ys f0) = held data z)) /\
      (len <= p -> nth i ys f0 = f0).
Proof.
  intros He W Hk HL F D len. destruct n as [|n].
  { exists [], (player data (of_Z 48000) s). split; [reflexivity|]. split; [reflexivity|]. intros i Hi. exfalso. inversion Hi. }
  destruct (scrub_own e k data (repeat s (S n)) He W Hk HL) as (ys & r' & E1 & E2 & E3).
  { intros x Hx. apply repeat_spec in Hx. subst x. auto. }
  rewrite repeat_length in *. exists ys, r'. split; [|split; [exact E2|]].
  - rewrite <- E1, <- (turning_repeat s (S n)) by reflexivity. reflexivity.
  - intros i Hi p. pose proof (E3 i Hi) as X. cbn zeta in X. rewrite firstn_rep, distance_repeat in X by lia. exact X.
Qed.

(** every m-th sample *)
Lemma whole_speed e data m n : (-124 <= e <= 125)%Z -> within e data -> (0 <= m <= 2 ^ 23)%Z -> (Z.of_nat (length data) <= 2 ^ 23)%Z ->
  exists ys r', rcalls n (player data (of_Z 48000) (of_Z m)) = Ok (ys, r') /\ length ys = n /\
    forall i, (i < n)%nat -> let j := (Z.of_nat i * m)%Z in
      ((j < Z.of_nat (length data))%Z -> is_finite (nth i ys f0) = true /\ B2R (nth i ys f0) = B2R (mono (nth (Z.to_nat j) data mono_new))) /\
      ((Z.of_nat (length data) <= j)%Z -> nth i ys f0 = f0).
Proof.
  intros He W Hm HL. destruct (of_Z64 m ltac:(lia)) as [F V].
  destruct (steady e 23 data (of_Z m) n He W ltac:(lia) HL F) as (ys & r' & E1 & E2 & E3).
  { rewrite V. split; [|apply grid_int; lia]. rewrite <- IZR_pow2 by lia. split; apply IZR_le; lia. }
  exists ys, r'. split; [exact E1|]. split; [exact E2|]. intros i Hi j. destruct (E3 i Hi) as [X Y].
  rewrite V, INR_IZR_INZ, <- mult_IZR in X, Y. fold j in X, Y. split; intro Q.
  - destruct X as (A & _ & B); [apply IZR_lt; exact Q|]. split; [exact A|]. rewrite (B j eq_refl). unfold held. rewrite Z.min_l by lia. reflexivity.
  - apply Y. apply IZR_le. exact Q.
Qed.
(** half speed: the samples and the points halfway between them *)
Lemma half_speed e data n : (-124 <= e <= 125)%Z -> within e data -> (Z.of_nat (length data) <= 2 ^ 22)%Z ->
  exists ys r', rcalls n (player data (of_Z 48000) (fdiv f1 (of_Z 2))) = Ok (ys, r') /\ length ys = n /\
    (forall j, (2 * j < n)%nat -> (j < length data)%nat -> B2R (nth (2 * j) ys f0) = B2R (mono (nth j data mono_new))) /\
    (forall j, (2 * j + 1 < n)%nat -> (j + 1 < length data)%nat ->
       Rabs (B2R (nth (2 * j + 1) ys f0) - (B2R (mono (nth j data mono_new)) + B2R (mono (nth (j + 1) data mono_new))) / 2) <= bpow radix2 (e - 22)) /\
    (forall i, (i < n)%nat -> (2 * length data <= i)%nat -> nth i ys f0 = f0).
Proof.
  intros He W HL. set (h := fdiv f1 (of_Z 2) : f64).
  assert (H : is_finite h = true /\ B2R h = / 2).
  { destruct (B2R_of_SF (h : f64) false 4503599627370496 (-53)) as [F ->]; [vm_compute; reflexivity|]. split; [exact F|]. cbn. lra. }
  destruct H as [F V].
  destruct (steady e 22 data h n He W ltac:(lia) HL F) as (ys & r' & E1 & E2 & E3).
  { rewrite V. split; [|exists 1%Z; change (bpow radix2 (22 - 23)) with (/ 2); lra]. split; [lra|]. apply Rle_trans with (bpow radix2 0); [simpl; lra|apply bpow_le; lia]. }
  exists ys, r'. split; [exact E1|]. split; [exact E2|]. rewrite V in E3.
  assert (N2 : forall j, INR (2 * j) = 2 * IZR (Z.of_nat j)) by (intro j; rewrite mult_INR, <- INR_IZR_INZ; simpl; lra).
  split; [|split].
  - intros j Hj Hl. destruct (E3 (2 * j)%nat Hj) as [X _]. rewrite N2 in X.
    destruct X as (_ & _ & X). { apply Rlt_le_trans with (IZR (Z.of_nat j + 1)); [rewrite plus_IZR; lra|apply IZR_le; lia]. }
    rewrite (X (Z.of_nat j)) by field. unfold held. rewrite Z.min_l, Nat2Z.id by lia. reflexivity.
  - intros j Hj Hl. destruct (E3 (2 * j + 1)%nat Hj) as [X _]. rewrite plus_INR, N2 in X. change (INR 1) with 1 in X.
    assert (Ep : (2 * IZR (Z.of_nat j) + 1) * / 2 = IZR (Z.of_nat j) + / 2) by field. rewrite Ep in X.
    destruct X as (_ & X & _). { apply Rlt_le_trans with (IZR (Z.of_nat j + 1)); [rewrite plus_IZR; lra|apply IZR_le; lia]. }
    eapply Rle_trans; [|exact X]. right. do 2 f_equal. unfold interpolated.
    assert (Ef : Zfloor (IZR (Z.of_nat j) + / 2) = Z.of_nat j) by (apply Zfloor_imp; rewrite plus_IZR; lra). rewrite Ef.
    unfold held. rewrite !Z.min_l by lia. rewrite Nat2Z.id. replace (Z.to_nat (Z.of_nat j + 1)) with (j + 1)%nat by lia. field.
  - intros i Hi Hl. destruct (E3 i Hi) as [_ Y]. apply Y. rewrite INR_IZR_INZ.
    assert (IZR (Z.of_nat (2 * length data)) <= IZR (Z.of_nat i)) by (apply IZR_le; lia).
    rewrite Nat2Z.inj_mul, mult_IZR in H. simpl (IZR (Z.of_nat 2)) in H. lra.
Qed.

(** ten calls at a tenth of the speed *)
Lemma tenths : exists ys r', rcalls 10 (player [mkMono f0; mkMono f1; mkMono f0] (of_Z 48000) (fdiv f1 (of_Z 10))) = Ok (ys, r') /\ B2R (r_ind r') <> 1.
Proof.
  set (r0 := player _ _ _).
  destruct (rcalls 10 r0) as [[ys r']|] eqn:E.
  2:{ exfalso. assert (match rcalls 10 r0 with Ok _ => true | Panic => false end = true) as X by (vm_compute; reflexivity). rewrite E in X. discriminate. }
  exists ys, r'. split; [reflexivity|].
  assert (X : feq (r_ind r') (of_Z 1) = false).
  { assert (match rcalls 10 r0 with Ok (_, r) => feq (r_ind r) (of_Z 1) | Panic => true end = false) as X by (vm_compute; reflexivity). rewrite E in X. exact X. }
  assert (Fi : fin (r_ind r')).
  { assert (match rcalls 10 r0 with Ok (_, r) => is_finite (r_ind r) | Panic => false end = true) as Y by (vm_compute; reflexivity). rewrite E in Y. exact Y. }
  intro Q. destruct (of_Z32 1 ltac:(lia)) as [F1 V1].
  unfold feq in X. rewrite (Beqb_correct _ _ _ _ Fi F1), V1, Q in X. rewrite Raux.Req_bool_true in X; [discriminate|reflexivity].
Qed.
