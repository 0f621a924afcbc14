(** * Proofs about MonoResampler: playback at any speed *)

From Coq Require Import ZArith List Bool Reals Lra Lia Psatz.
From Flocq Require Import Core.Core IEEE754.BinarySingleNaN.
From Verif Require Import Model.Floats Model.Mono Model.Wav Model.Resampler Spec.Playback
  Proof.FloatFacts Proof.SampleFormatP Proof.FormatsP Proof.WavP Proof.ResamplerP Proof.ResamplerP2 Proof.ResamplerP3 Proof.GeneratorsP Proof.FormatsVecP.
Import ListNotations.
Local Open Scope R_scope.

Lemma usize_lt (x : f32) len : fin x -> 0 <= B2R x -> (0 <= len <= 2 ^ 60)%Z ->
  ((to_usize x < len)%Z <-> B2R x < IZR len).
Proof.
  intros F H L. unfold to_usize. rewrite (to_int_fin _ _ _ F), Ztrunc_floor by exact H.
  pose proof (Zfloor_lb (B2R x)) as A. pose proof (Zfloor_ub (B2R x)) as B.
  assert (Z0 : (0 <= Zfloor (B2R x))%Z) by (apply Zfloor_lub; exact H).
  split; intro Q.
  - apply Rlt_le_trans with (IZR (Zfloor (B2R x) + 1)); [rewrite plus_IZR; exact B|]. apply IZR_le.
    revert Q. unfold u64_max. lia.
  - assert (IZR (Zfloor (B2R x)) < IZR len) as QQ by lra. apply lt_IZR in QQ. unfold u64_max. lia.
Qed.

(** ** one step *)
Lemma advance_pos r : playing r -> B2R (r_ind r) < IZR (Z.of_nat (length (r_data r))) ->
  playing (advance r) /\ B2R (r_ind (advance r)) = rnd32 (B2R (r_ind r) + B2R (step r)) /\
  step (advance r) = step r /\ r_data (advance r) = r_data r.
Proof.
  intros (L & F & P & Fs & Ps & D) Q.
  assert (E : advance r = mkRes (r_data r) (fadd (r_ind r) (step r)) (r_inc r) (r_speed r) (r_ls r) (r_le r)).
  { unfold advance. rewrite L. cbn [Z.eqb negb]. rewrite andb_false_r. reflexivity. }
  assert (B60 : B2R (r_ind r) <= bpow radix2 100).
  { apply Rle_trans with (IZR (2 ^ 60)); [|rewrite IZR_pow2 by lia; apply bpow_le; lia].
    apply Rlt_le. eapply Rlt_le_trans; [exact Q|apply IZR_le, D]. }
  destruct (fadd_le (r_ind r) (step r) (bpow radix2 101) F Fs) as (A & B & C).
  { apply fmt32_b; lia. } { apply bpow_lt; lia. }
  { change 101%Z with (100 + 1)%Z. rewrite bpow_double. rewrite Rabs_pos_eq; lra. }
  assert (Y : 0 <= B2R (fadd (r_ind r) (step r))) by (rewrite B; apply rnd_nonneg; lra).
  rewrite E. unfold playing, step. cbn [r_le r_ind r_inc r_speed r_data]. fold (step r). auto 12.
Qed.

Lemma process_step r y r' : playing r -> resampler_process r = Ok (y, r') ->
  (B2R (r_ind r) < IZR (Z.of_nat (length (r_data r))) /\ r' = advance r) \/
  (IZR (Z.of_nat (length (r_data r))) <= B2R (r_ind r) /\ r' = r /\ y = f0).
Proof.
  intros (L & F & P & Fs & Ps & D) E. destruct (process_inv _ _ _ E) as [(Ey & -> & H & _)|(j & H & _ & _ & ->)].
  - right. repeat split; try assumption. apply Rnot_lt_le. intro Q. apply usize_lt in Q; try assumption; lia.
  - left. split; [|reflexivity]. apply usize_lt; try assumption; lia.
Qed.
Lemma process_playing r y r' : playing r -> resampler_process r = Ok (y, r') ->
  playing r' /\ step r' = step r /\ r_data r' = r_data r /\ B2R (r_ind r) <= B2R (r_ind r').
Proof.
  intros Pl E. destruct (process_step _ _ _ Pl E) as [(Q & ->)|(_ & -> & _)]; [|split; [exact Pl|]; repeat split; lra].
  destruct (advance_pos _ Pl Q) as (A & B & C & D). repeat split; try assumption; try apply A.
  rewrite B. apply rnd_ge_fmt; [apply fmt_B2R|]. destruct Pl as (_ & _ & _ & _ & Ps & _). lra.
Qed.
Lemma rcalls_playing n : forall r ys r', playing r -> rcalls n r = Ok (ys, r') ->
  playing r' /\ step r' = step r /\ r_data r' = r_data r /\ B2R (r_ind r) <= B2R (r_ind r').
Proof.
  induction n as [|n IH]; intros r ys r' Pl E.
  - injection E as _ <-. split; [exact Pl|]. repeat split; lra.
  - rewrite rcalls_S in E. destruct (resampler_process r) as [[y r1]|] eqn:E1; [|discriminate]. cbn [bind] in E.
    destruct (rcalls n r1) as [[zs r2]|] eqn:E2; [|discriminate]. injection E as _ <-.
    destruct (process_playing _ _ _ Pl E1) as (A & B & C & D).
    destruct (IH _ _ _ A E2) as (A' & B' & C' & D'). repeat split; try apply A'; try congruence. lra.
Qed.
(** the last of n + 1 calls *)
Lemma rcalls_last n r ys r' : rcalls (S n) r = Ok (ys, r') ->
  exists zs r1 y, rcalls n r = Ok (zs, r1) /\ resampler_process r1 = Ok (y, r') /\ ys = zs ++ [y].
Proof.
  replace (S n) with (n + 1)%nat by lia. rewrite rcalls_app.
  destruct (rcalls n r) as [[zs r1]|]; [|discriminate]. cbn [bind]. rewrite rcalls_S.
  destruct (resampler_process r1) as [[y r2]|] eqn:E; [|discriminate]. cbn [bind].
  change (rcalls 0 r2) with (Ok ([] : list f32, r2)). cbn [bind]. intro Q. injection Q as <- <-. exists zs, r1, y. auto.
Qed.

(** ** where the position is after n calls *)
Section Drift.
Variable k : Z.
Hypothesis Hk : (0 <= k <= 24)%Z.
Notation d := (bpow radix2 (k - 25)).

Lemma rnd_step x : 0 <= x <= bpow radix2 k -> Rabs (rnd32 x - x) <= d.
Proof.
  intro H. replace (k - 25)%Z with (k - 24 - 1)%Z by ring. apply (rnd_err (prec:=24) (emax:=128) k); [unfold SpecFloat.emin; lia|]. rewrite Rabs_pos_eq; lra.
Qed.

(** below the threshold T, the position is the product up to the accumulated rounding errors *)
Lemma position n : forall r ys r' T, playing r -> rcalls n r = Ok (ys, r') ->
  T <= bpow radix2 k -> T <= IZR (Z.of_nat (length (r_data r))) -> B2R (r_ind r') < T ->
  Rabs (B2R (r_ind r') - (B2R (r_ind r) + INR n * B2R (step r))) <= INR n * d.
Proof.
  induction n as [|n IH]; intros r ys r' T Pl E HT HL Q.
  - injection E as _ <-. simpl. replace (_ - _) with 0 by lra. rewrite Rabs_R0. lra.
  - destruct (rcalls_last _ _ _ _ E) as (zs & r1 & y & E1 & E2 & _).
    destruct (rcalls_playing _ _ _ _ Pl E1) as (P1 & S1 & D1 & M1).
    destruct (process_playing _ _ _ P1 E2) as (P2 & S2 & D2 & M2).
    specialize (IH r zs r1 T Pl E1 HT HL ltac:(lra)).
    assert (Q1 : B2R (r_ind r1) < IZR (Z.of_nat (length (r_data r1)))) by (rewrite D1; lra).
    destruct (process_step _ _ _ P1 E2) as [(_ & ->)|(X & _)]; [|lra].
    destruct (advance_pos _ P1 Q1) as (_ & B & _). rewrite S1 in B. rewrite B in *.
    destruct P1 as (_ & _ & PP & _). destruct Pl as (_ & _ & _ & _ & Ps & _).
    set (x := B2R (r_ind r1) + B2R (step r)) in *.
    assert (X : x <= bpow radix2 k).
    { apply Rnot_lt_le. intro W. assert (bpow radix2 k <= rnd32 x) by (apply rnd_ge_fmt; [apply fmt32_b; lia|lra]). lra. }
    pose proof (rnd_step x ltac:(unfold x in *; lra)) as R.
    rewrite S_INR. apply Rabs_le. apply Rabs_le_inv in R. apply Rabs_le_inv in IH. unfold x in *. lra.
Qed.

(** ... so the threshold is passed neither too early nor too late *)
Lemma not_before n : forall r ys r' T, playing r -> rcalls n r = Ok (ys, r') ->
  T <= bpow radix2 k -> T <= IZR (Z.of_nat (length (r_data r))) ->
  B2R (r_ind r) + INR n * (B2R (step r) + d) < T -> B2R (r_ind r') < T.
Proof.
  induction n as [|n IH]; intros r ys r' T Pl E HT HL Q.
  - injection E as _ <-. simpl in Q. lra.
  - destruct (rcalls_last _ _ _ _ E) as (zs & r1 & y & E1 & E2 & _).
    destruct (rcalls_playing _ _ _ _ Pl E1) as (P1 & S1 & D1 & M1).
    pose proof (bpow_gt_0 radix2 (k - 25)) as Pd. pose proof Pl as (_ & _ & P0 & _ & Ps & _).
    rewrite S_INR in Q. pose proof (pos_INR n) as N0.
    assert (B1 : B2R (r_ind r1) < T) by (apply (IH r zs r1 T); try assumption; lra).
    pose proof (position n r zs r1 T Pl E1 HT HL B1) as I.
    assert (Q1 : B2R (r_ind r1) < IZR (Z.of_nat (length (r_data r1)))) by (rewrite D1; lra).
    destruct (process_step _ _ _ P1 E2) as [(_ & ->)|(X & _)]; [|lra].
    destruct (advance_pos _ P1 Q1) as (_ & B & _). rewrite S1 in B. rewrite B.
    destruct P1 as (_ & _ & PP & _). apply Rabs_le_inv in I.
    pose proof (rnd_step (B2R (r_ind r1) + B2R (step r)) ltac:(lra)) as R. apply Rabs_le_inv in R. lra.
Qed.
Lemma not_after n r ys r' T : playing r -> rcalls n r = Ok (ys, r') ->
  T <= bpow radix2 k -> T <= IZR (Z.of_nat (length (r_data r))) ->
  T <= B2R (r_ind r) + INR n * (B2R (step r) - d) -> T <= B2R (r_ind r').
Proof.
  intros Pl E HT HL Q. apply Rnot_lt_le. intro X. pose proof (position n r ys r' T Pl E HT HL X) as I.
  apply Rabs_le_inv in I. lra.
Qed.
End Drift.

(** ** what one call returns *)
Lemma process_value r y r' : playing r -> (Z.of_nat (length (r_data r)) <= 2 ^ 24)%Z ->
  B2R (r_ind r) < IZR (Z.of_nat (length (r_data r))) -> resampler_process r = Ok (y, r') ->
  let i := Zfloor (B2R (r_ind r)) in let len := Z.of_nat (length (r_data r)) in
  (0 <= i < len)%Z /\
  y = mix (ffract (r_ind r)) (sample_at (r_data r) (Z.to_nat i))
    (sample_at (r_data r) (Z.to_nat (if (len <=? i + 1)%Z then i else to_usize (fadd (r_ind r) (of_Z 1))))).
Proof.
  intros (L & F & P & Fs & Ps & _) D Q E i len.
  pose proof (Zfloor_lb (B2R (r_ind r))) as A. pose proof (Zfloor_ub (B2R (r_ind r))) as B. fold i in A, B.
  assert (I0 : (0 <= i)%Z) by (apply Zfloor_lub; exact P).
  assert (I1 : (i < len)%Z) by (apply lt_IZR; unfold len; lra).
  split; [lia|].
  assert (U : to_usize (r_ind r) = i) by (apply to_usize_fin; [exact F|unfold len in I1; lia|lra]).
  revert E. unfold resampler_process. fold len. rewrite !to_usize_trunc, L, U.
  destruct (Z.leb_spec len i) as [X|_]; [lia|]. cbn [andb].
  unfold usize_add. destruct (Z.leb_spec (i + 1) u64_max) as [_|X]; [|unfold u64_max, len in *; lia]. cbn [bind].
  cbn [Z.eqb negb]. rewrite andb_false_r. rewrite !(index_ok _ i mono_new) by (fold len; lia).
  destruct (len <=? i + 1)%Z.
  - cbn [bind]. intro E. injection E as <- _. reflexivity.
  - destruct (index (r_data r) (to_usize (fadd (r_ind r) (of_Z 1)))) as [m|] eqn:X; [|discriminate].
    destruct (Z.lt_ge_cases (to_usize (fadd (r_ind r) (of_Z 1))) len) as [Y|Y]; [|rewrite index_panic in X by exact Y; discriminate].
    pose proof (to_usize_nonneg (fadd (r_ind r) (of_Z 1))) as N.
    rewrite (index_ok _ _ mono_new) in X by (fold len; lia). injection X as <-.
    cbn [bind]. intro E. injection E as <- _. reflexivity.
Qed.

(** the index of the right neighbour *)
Lemma neighbour (x : f32) : fin x -> 0 <= B2R x -> (Zfloor (B2R x) + 1 < 2 ^ 24)%Z -> ~ below_power (B2R x) ->
  to_usize (fadd x (of_Z 1)) = (Zfloor (B2R x) + 1)%Z.
Proof.
  intros F P L NB. set (i := Zfloor (B2R x)) in *.
  pose proof (Zfloor_lb (B2R x)) as A. pose proof (Zfloor_ub (B2R x)) as B. fold i in A, B.
  assert (I0 : (0 <= i)%Z) by (apply Zfloor_lub; exact P).
  destruct (of_Z32 1 ltac:(lia)) as [F1 V1].
  assert (L' : IZR (i + 1) < bpow radix2 24) by (rewrite <- (IZR_pow2 24) by lia; apply IZR_lt; exact L).
  rewrite plus_IZR in L'.
  assert (B24 : bpow radix2 24 = 16777216) by (simpl; lra).
  assert (B25 : bpow radix2 25 = 33554432) by (simpl; lra).
  destruct (fadd_le x (of_Z 1) (bpow radix2 25) F F1) as (G & V & _).
  { apply fmt32_b; lia. } { apply bpow_lt; lia. } { rewrite V1, Rabs_pos_eq; lra. }
  rewrite V1 in V. apply to_usize_fin; [exact G|lia|]. rewrite V. split.
  - apply rnd_ge_fmt; [apply fmt32_Z; lia|]. rewrite plus_IZR. lra.
  - apply Rnot_le_lt. intro X. rewrite <- plus_IZR in X.
    destruct (rnd_up_next (B2R x) (i + 1)) as (k & K1 & K2 & K3).
    + apply fmt_B2R. + lia. + rewrite plus_IZR. lra. + exact X. + apply NB. exists k. auto.
Qed.
(** ... is one too high below a power of two *)
Lemma neighbour_up (x : f32) k : fin x -> (0 <= k <= 22)%Z -> B2R x = bpow radix2 k - bpow radix2 (k - 24) ->
  Zfloor (B2R x) = (2 ^ k - 1)%Z /\ to_usize (fadd x (of_Z 1)) = (2 ^ k + 1)%Z.
Proof.
  intros F K E. destruct (of_Z32 1 ltac:(lia)) as [F1 V1].
  assert (S1 : bpow radix2 (k - 24) <= / 4).
  { apply Rle_trans with (bpow radix2 (-2)); [apply bpow_le; lia|simpl; lra]. }
  pose proof (bpow_gt_0 radix2 (k - 24)) as S0.
  assert (EP : IZR (2 ^ k) = bpow radix2 k) by (apply IZR_pow2; lia).
  assert (P1 : 1 <= bpow radix2 k) by (change 1 with (bpow radix2 0); apply bpow_le; lia).
  assert (Fl : Zfloor (B2R x) = (2 ^ k - 1)%Z).
  { apply Zfloor_imp. rewrite E, plus_IZR, minus_IZR, EP. lra. }
  split; [exact Fl|].
  assert (N : (2 ^ k + 1 <= to_usize (fadd x (of_Z 1)))%Z).
  { apply (next_index_iff x (2 ^ k + 1)); [|exists k; auto].
    assert (2 ^ k <= 2 ^ 22)%Z by (apply Z.pow_le_mono_r; lia). lia. }
  assert (K22 : (2 ^ k <= 2 ^ 22)%Z) by (apply Z.pow_le_mono_r; lia).
  assert (B22 : bpow radix2 k <= 4194304) by (rewrite <- EP; apply IZR_le in K22; simpl in K22; lra).
  assert (B25 : bpow radix2 25 = 33554432) by (simpl; lra).
  destruct (fadd_le x (of_Z 1) (bpow radix2 25) F F1) as (G & V & _).
  { apply fmt32_b; lia. } { apply bpow_lt; lia. } { rewrite V1, Rabs_pos_eq; lra. }
  rewrite V1 in V.
  assert (U : rnd32 (B2R x + 1) <= IZR (2 ^ k + 1)).
  { apply rnd_le_fmt; [apply fmt32_Z; lia|]. rewrite plus_IZR, EP. lra. }
  assert (Lo : (to_usize (fadd x (of_Z 1)) < 2 ^ k + 2)%Z).
  { apply usize_lt; [exact G| |lia|].
    - rewrite V. apply rnd_nonneg. lra.
    - rewrite V. eapply Rle_lt_trans; [exact U|]. apply IZR_lt. lia. }
  lia.
Qed.

(** ** the rounding errors of the interpolation *)
Lemma ffract_near (x : f32) : fin x -> 0 <= B2R x ->
  fin (ffract x) /\ 0 <= B2R (ffract x) <= 1 /\ Rabs (B2R (ffract x) - (B2R x - IZR (Zfloor (B2R x)))) <= bpow radix2 (-25).
Proof.
  intros F H. unfold ffract. destruct (ftrunc_ok x F) as [A B]. rewrite Ztrunc_floor in B by exact H.
  pose proof (Zfloor_lb (B2R x)) as L. pose proof (Zfloor_ub (B2R x)) as Ub.
  destruct (fsub_le x (ftrunc x) 1 F A) as (C & D & E).
  { exact (fmt32_Z 1 ltac:(lia)). } { change 1 with (bpow radix2 0). apply bpow_lt; lia. }
  { rewrite B, Rabs_pos_eq; lra. }
  rewrite B in D. split; [exact C|]. split.
  - split; [rewrite D; apply rnd_nonneg; lra|]. apply Rabs_le_inv in E. lra.
  - rewrite D. apply (rnd_err (prec:=24) (emax:=128) 0); [unfold SpecFloat.emin; lia|]. simpl. rewrite Rabs_pos_eq; lra.
Qed.

Lemma mix_near e (fr x1 x2 : f32) t : (-124 <= e <= 125)%Z -> fin fr -> 0 <= B2R fr <= 1 -> 0 <= t <= 1 -> Rabs (B2R fr - t) <= bpow radix2 (-25) ->
  fin x1 -> fin x2 -> Rabs (B2R x1) <= bpow radix2 e -> Rabs (B2R x2) <= bpow radix2 e ->
  fin (mix fr x1 x2) /\ Rabs (B2R (mix fr x1 x2) - (B2R x1 + t * (B2R x2 - B2R x1))) <= bpow radix2 (e - 22).
Proof.
  intros He Ff Hf Ht Hd F1 F2 H1 H2. unfold mix.
  assert (E1 : bpow radix2 (e + 1) = 2 * bpow radix2 e) by apply bpow_double.
  pose proof (bpow_gt_0 radix2 e) as Pe.
  assert (ER : forall x, Rabs x <= bpow radix2 (e + 1) -> Rabs (rnd32 x - x) <= bpow radix2 e * / 16777216).
  { intros x Hx. replace (bpow radix2 e * / 16777216) with (bpow radix2 (e + 1 - 24 - 1)).
    - apply (rnd_err (prec:=24) (emax:=128) (e + 1)); [unfold SpecFloat.emin; lia|exact Hx].
    - replace (e + 1 - 24 - 1)%Z with (e + (-24))%Z by ring. rewrite bpow_plus. simpl (bpow radix2 (-24)). lra. }
  apply Rabs_le_inv in H1, H2, Hd. change (bpow radix2 (-25)) with (/ 33554432) in Hd.
  assert (B1 : Rabs (B2R x2 - B2R x1) <= bpow radix2 (e + 1)) by (apply Rabs_le; lra).
  destruct (fsub_le x2 x1 (bpow radix2 (e + 1)) F2 F1) as (A1 & V1 & C1).
  { apply fmt32_b; lia. } { apply bpow_lt; lia. } { exact B1. }
  pose proof (ER _ B1) as R1. rewrite <- V1 in R1. set (s := fsub x2 x1) in *. clearbody s.
  assert (B2 : Rabs (B2R fr * B2R s) <= bpow radix2 (e + 1)).
  { rewrite Rabs_mult, (Rabs_pos_eq (B2R fr)) by lra. pose proof (Rabs_pos (B2R s)). nra. }
  destruct (fmul_le fr s (bpow radix2 (e + 1)) Ff A1) as (A2 & V2 & C2).
  { apply fmt32_b; lia. } { apply bpow_lt; lia. } { exact B2. }
  pose proof (ER _ B2) as R2. rewrite <- V2 in R2. set (m := fmul fr s) in *. clearbody m.
  set (v := B2R x1 + t * (B2R x2 - B2R x1)).
  assert (Bv : Rabs v <= bpow radix2 e).
  { apply Rabs_le. unfold v. split; nra. }
  apply Rabs_le_inv in R1, R2, B1.
  assert (Dm : Rabs (B2R x1 + B2R m - v) <= 3 * (bpow radix2 e * / 16777216)).
  { apply Rabs_le. unfold v.
    assert (X1 : - (bpow radix2 e * / 16777216) <= B2R fr * (B2R s - (B2R x2 - B2R x1)) <= bpow radix2 e * / 16777216) by nra.
    assert (X2 : - (bpow radix2 e * / 16777216) <= (B2R fr - t) * (B2R x2 - B2R x1) <= bpow radix2 e * / 16777216).
    { rewrite E1 in B1. split; nra. }
    nra. }
  apply Rabs_le_inv in Dm, Bv.
  assert (B3 : Rabs (B2R x1 + B2R m) <= bpow radix2 (e + 1)).
  { apply Rabs_le. rewrite E1. lra. }
  destruct (fadd_le x1 m (bpow radix2 (e + 1)) F1 A2) as (A3 & V3 & C3).
  { apply fmt32_b; lia. } { apply bpow_lt; lia. } { exact B3. }
  pose proof (ER _ B3) as R3. rewrite <- V3 in R3. split; [exact A3|].
  apply Rabs_le_inv in R3. apply Rabs_le. unfold v in *.
  replace (bpow radix2 (e - 22)) with (4 * (bpow radix2 e * / 16777216)); [lra|].
  replace (e - 22)%Z with (e + (-22))%Z by ring. rewrite bpow_plus. simpl (bpow radix2 (-22)). lra.
Qed.

Lemma sample_held data i : (0 <= i < Z.of_nat (length data))%Z -> B2R (sample_at data (Z.to_nat i)) = held data i.
Proof. intro H. unfold sample_at, mono_into_sample, held. rewrite Z.min_l by lia. reflexivity. Qed.

(** ** one call interpolates *)
Lemma interpolates e r y r' : (-124 <= e <= 125)%Z -> within e (r_data r) -> playing r ->
  (Z.of_nat (length (r_data r)) <= 2 ^ 24)%Z -> B2R (r_ind r) < IZR (Z.of_nat (length (r_data r))) ->
  resampler_process r = Ok (y, r') ->
  fin y /\ (~ below_power (B2R (r_ind r)) -> Rabs (B2R y - interpolated (r_data r) (B2R (r_ind r))) <= bpow radix2 (e - 22)).
Proof.
  intros He W Pl D Q E. destruct (process_value r y r' Pl D Q E) as (I & ->).
  pose proof Pl as (L & F & P & Fs & Ps & _). set (x := r_ind r) in *. set (i := Zfloor (B2R x)) in *.
  pose proof (Zfloor_lb (B2R x)) as A. pose proof (Zfloor_ub (B2R x)) as B. fold i in A, B.
  destruct (ffract_near x F P) as (Ff & Hf & Hd). fold i in Hd.
  set (len := Z.of_nat (length (r_data r))) in *.
  match goal with |- context [mix _ ?a (sample_at _ ?j)] =>
    destruct (within_at e (r_data r) (Z.to_nat i) W) as [F1 H1]; destruct (within_at e (r_data r) j W) as [F2 H2];
    destruct (mix_near e (ffract x) a (sample_at (r_data r) j) (B2R x - IZR i) He Ff Hf ltac:(lra) Hd F1 F2 H1 H2) as [G V] end.
  split; [exact G|]. intro NB. eapply Rle_trans; [|exact V]. right. f_equal. f_equal.
  unfold interpolated. fold i. rewrite sample_held by (fold len; lia). do 2 f_equal.
  destruct (Z.leb_spec len (i + 1)) as [X|X].
  - rewrite sample_held by (fold len; lia). unfold held. fold len. do 2 f_equal. rewrite !Z.min_r by lia. reflexivity.
  - unfold i. rewrite neighbour; [|exact F|exact P|fold i; lia|exact NB]. fold i. rewrite sample_held by (fold len; lia). reflexivity.
Qed.

(** ** the step, from rate and speed *)
Lemma prod_rel a d p q : Rabs (a - 1) <= p -> Rabs d <= q -> Rabs (a * (1 + d) - 1) <= p + q + p * q.
Proof.
  intros H K. replace (a * (1 + d) - 1) with ((a - 1) + d + (a - 1) * d) by ring.
  eapply Rle_trans; [apply Rabs_triang|]. apply Rplus_le_compat.
  - eapply Rle_trans; [apply Rabs_triang|]. lra.
  - rewrite Rabs_mult. apply Rmult_le_compat; try apply Rabs_pos; assumption.
Qed.
Lemma step_near (data : list Mono) (rate speed : f64) : fin rate -> 1 <= B2R rate <= 1048576 ->
  fin speed -> / 1048576 <= B2R speed <= 1048576 ->
  let r := player data rate speed in let c := B2R rate * B2R speed / 48000 in
  fin (step r) /\ c * (1 - bpow radix2 (-22)) <= B2R (step r) <= c * (1 + bpow radix2 (-22)).
Proof.
  intros Fr Hr Fs Hs r c.
  assert (E : step r = fmul (to32 (fmul rate INV_SAMPLE_RATE)) (to32 speed)) by reflexivity. rewrite E.
  destruct INV_ok as [FI _]. pose proof INV_val as VI.
  assert (B0 : / 48001 <= B2R rate * B2R INV_SAMPLE_RATE <= 22) by (rewrite VI; lra).
  assert (B5 : bpow radix2 5 = 32) by (simpl; lra).
  destruct (fmul_le rate INV_SAMPLE_RATE (bpow radix2 5) Fr FI) as (A1 & V1 & _).
  { apply fmt64_b; lia. } { apply bpow_lt; lia. } { rewrite Rabs_pos_eq; lra. }
  destruct (rnd_rel (prec:=53) (emax:=1024) (B2R rate * B2R INV_SAMPLE_RATE)) as (d1 & D1 & E1).
  { rewrite Rabs_pos_eq by lra. apply Rle_trans with (bpow radix2 (-16)); [apply bpow_le; unfold SpecFloat.emin; lia|]. change (bpow radix2 (-16)) with (/ 65536). lra. }
  rewrite E1 in V1. set (q := fmul rate INV_SAMPLE_RATE) in *. clearbody q.
  assert (D1' : Rabs d1 <= / 9007199254740992) by (exact D1). apply Rabs_le_inv in D1'.
  assert (Bq : / 48002 <= B2R q <= 23) by (rewrite V1; nra).
  assert (B126 : bpow radix2 126 >= 1048577). { apply Rle_ge. apply Rle_trans with (bpow radix2 21); [simpl; lra|apply bpow_le; lia]. }
  assert (B125 : bpow radix2 (-125) <= / 1048577). { apply Rle_trans with (bpow radix2 (-21)); [apply bpow_le; lia|simpl; lra]. }
  destruct (to32_rel q A1) as (F2 & d2 & D2 & V2). { rewrite Rabs_pos_eq; lra. }
  destruct (to32_rel speed Fs) as (F3 & d3 & D3 & V3). { rewrite Rabs_pos_eq; lra. }
  change (bpow radix2 (-24)) with (/ 16777216) in D2, D3. apply Rabs_le_inv in D2, D3.
  set (a := to32 q) in *. set (b := to32 speed) in *. clearbody a b.
  assert (Ba : / 48003 <= B2R a <= 24) by (rewrite V2; nra).
  assert (Bb : / 1048577 <= B2R b <= 1048577) by (rewrite V3; nra).
  assert (Bab : / 1099511627776 <= B2R a * B2R b <= 33554432) by nra.
  assert (B25 : bpow radix2 25 = 33554432) by (simpl; lra).
  destruct (fmul_le a b (bpow radix2 25) F2 F3) as (A4 & V4 & _).
  { apply fmt32_b; lia. } { apply bpow_lt; lia. } { rewrite Rabs_pos_eq; lra. }
  split; [exact A4|].
  destruct (rnd_rel (prec:=24) (emax:=128) (B2R a * B2R b)) as (d4 & D4 & E4).
  { rewrite Rabs_pos_eq by lra. apply Rle_trans with (bpow radix2 (-40)); [apply bpow_le; unfold SpecFloat.emin; lia|simpl; lra]. }
  rewrite V4, E4, V2, V3, V1, VI.
  assert (D4' : Rabs d4 <= / 16777216) by (exact D4). apply Rabs_le_inv in D4'.
  assert (C0 : 0 < c) by (unfold c; nra).
  set (g := 6148914691236517 / 295147905179352825856 * 48000).
  assert (G : 1 - / 4503599627370496 <= g <= 1 + / 4503599627370496) by (unfold g; lra).
  replace (_ * (1 + d4)) with (c * (g * (1 + d1) * (1 + d2) * (1 + d3) * (1 + d4))) by (unfold c, g; field).
  change (bpow radix2 (-22)) with (/ 4194304).
  assert (X1 : Rabs (g - 1) <= / 4503599627370496) by (apply Rabs_le; lra).
  pose proof (prod_rel _ _ _ _ X1 (Rabs_le _ _ D1')) as X2.
  pose proof (prod_rel _ _ _ _ X2 (Rabs_le _ _ D2)) as X3.
  pose proof (prod_rel _ _ _ _ X3 (Rabs_le _ _ D3)) as X4.
  pose proof (prod_rel _ _ _ _ X4 (Rabs_le _ _ D4')) as X5. apply Rabs_le_inv in X5.
  set (w := g * (1 + d1) * (1 + d2) * (1 + d3) * (1 + d4)) in *. clearbody w.
  split; apply Rmult_le_compat_l; lra.
Qed.

Lemma player_playing (data : list Mono) (rate speed : f64) : fin rate -> 1 <= B2R rate <= 1048576 ->
  fin speed -> / 1048576 <= B2R speed <= 1048576 -> (Z.of_nat (length data) <= 2 ^ 60)%Z ->
  playing (player data rate speed) /\ B2R (r_ind (player data rate speed)) = 0.
Proof.
  intros Fr Hr Fs Hs L. destruct (step_near data rate speed Fr Hr Fs Hs) as (A & B).
  split; [|reflexivity]. split; [reflexivity|]. split; [reflexivity|]. split; [simpl; lra|]. split; [exact A|]. split; [|exact L].
  change (bpow radix2 (-22)) with (/ 4194304) in B.
  assert (B100 : 1099511627776 <= bpow radix2 100) by (apply Rle_trans with (bpow radix2 40); [simpl; lra|apply bpow_le; lia]).
  assert (C : 0 <= B2R rate * B2R speed / 48000 <= 1099511627776 / 48000) by nra. split; nra.
Qed.

Lemma rcalls_nth n : forall i r ys r', (i < n)%nat -> rcalls n r = Ok (ys, r') ->
  exists zs r1 r2, rcalls i r = Ok (zs, r1) /\ resampler_process r1 = Ok (nth i ys f0, r2).
Proof.
  intros i r ys r' H E. replace n with (S i + (n - S i))%nat in E by lia. rewrite rcalls_app in E.
  destruct (rcalls (S i) r) as [[ys1 r2]|] eqn:E1; [|discriminate]. cbn [bind] in E.
  destruct (rcalls (n - S i) r2) as [[ys2 r3]|] eqn:E2; [|discriminate]. injection E as <- <-.
  destruct (rcalls_last _ _ _ _ E1) as (zs & r1 & y & A & B & ->). exists zs, r1, r2. split; [exact A|].
  assert (Lz : length zs = i).
  { clear -A. revert r zs r1 A. induction i as [|i IH]; intros r zs r1 A; [injection A as <- _; reflexivity|].
    rewrite rcalls_S in A. destruct (resampler_process r) as [[y r']|]; [|discriminate]. cbn [bind] in A.
    destruct (rcalls i r') as [[ws r2]|] eqn:Q; [|discriminate]. injection A as <- _. simpl. f_equal. exact (IH _ _ _ Q). }
  rewrite app_nth1 by (rewrite app_length; simpl; lia). rewrite app_nth2 by lia. rewrite Lz, Nat.sub_diag. exact B.
Qed.

Lemma playback e k data (rate speed : f64) n ys r' : (-124 <= e <= 125)%Z -> within e data -> (0 <= k <= 24)%Z ->
  (Z.of_nat (length data) <= 2 ^ k)%Z -> fin rate -> 1 <= B2R rate <= 1048576 ->
  fin speed -> / 1048576 <= B2R speed <= 1048576 ->
  rcalls n (player data rate speed) = Ok (ys, r') ->
  let c := B2R rate * B2R speed / 48000 in let len := IZR (Z.of_nat (length data)) in
  let drift := c * bpow radix2 (-22) + bpow radix2 (k - 25) in
  forall i, (i < n)%nat ->
    (INR i * (c + drift) < len -> exists p, 0 <= p < len /\ Rabs (p - INR i * c) <= INR i * drift /\
       is_finite (nth i ys f0) = true /\
       (~ below_power p -> Rabs (B2R (nth i ys f0) - interpolated data p) <= bpow radix2 (e - 22))) /\
    (len <= INR i * (c - drift) -> nth i ys f0 = f0).
Proof.
  intros He W Hk HL Fr Hr Fs Hs E c len drift i Hi.
  assert (K24 : (2 ^ k <= 2 ^ 24)%Z) by (apply Z.pow_le_mono_r; lia).
  destruct (player_playing data rate speed Fr Hr Fs Hs ltac:(lia)) as (Pl & P0).
  destruct (step_near data rate speed Fr Hr Fs Hs) as (_ & S0). fold c in S0.
  set (r := player data rate speed) in *. assert (Dr : r_data r = data) by reflexivity.
  assert (HT : len <= bpow radix2 k) by (unfold len; rewrite <- IZR_pow2 by lia; apply IZR_le; exact HL).
  destruct (rcalls_nth n i r ys r' Hi E) as (zs & r1 & r2 & E1 & E2).
  destruct (rcalls_playing _ _ _ _ Pl E1) as (P1 & S1 & D1 & M1).
  assert (HR : len <= IZR (Z.of_nat (length (r_data r)))) by (rewrite Dr; unfold len; lra).
  pose proof (pos_INR i) as I0. pose proof (bpow_gt_0 radix2 (k - 25)) as Pd.
  unfold drift. split; intro Q.
  - assert (B1 : B2R (r_ind r1) < len).
    { apply (not_before k Hk i r zs r1 len Pl E1 HT HR). rewrite P0.
      assert (INR i * (B2R (step r) + bpow radix2 (k - 25)) <= INR i * (c + drift)) by (unfold drift; apply Rmult_le_compat_l; lra).
      unfold drift in *. lra. }
    exists (B2R (r_ind r1)). split; [split; [apply P1|exact B1]|]. split.
    + pose proof (position k Hk i r zs r1 len Pl E1 HT HR B1) as I. rewrite P0, Rplus_0_l in I.
      apply Rabs_le_inv in I. apply Rabs_le.
      assert (INR i * (c * (1 - bpow radix2 (-22))) <= INR i * B2R (step r) <= INR i * (c * (1 + bpow radix2 (-22))))
        by (split; apply Rmult_le_compat_l; lra).
      lra.
    + rewrite <- Dr, <- D1.
      apply (interpolates e r1 _ r2); try assumption; rewrite ?D1, ?Dr; try assumption. lia.
  - assert (B1 : len <= B2R (r_ind r1)).
    { apply (not_after k Hk i r zs r1 len Pl E1 HT HR). rewrite P0.
      assert (INR i * (c - drift) <= INR i * (B2R (step r) - bpow radix2 (k - 25))) by (unfold drift; apply Rmult_le_compat_l; lra).
      unfold drift in *. lra. }
    destruct (process_step _ _ _ P1 E2) as [(X & _)|(_ & _ & X)]; [|exact X].
    rewrite D1, Dr in X. fold len in X. lra.
Qed.

(** ** slow playback of a long track *)
Lemma process_below r m : playing r -> (0 <= m <= 24)%Z -> (2 ^ m + 1 < Z.of_nat (length (r_data r)))%Z ->
  B2R (r_ind r) <= bpow radix2 m -> exists y, resampler_process r = Ok (y, advance r).
Proof.
  intros (L & F & P & Fs & Ps & D) Hm HL HB. set (len := Z.of_nat (length (r_data r))) in *.
  assert (EM : IZR (2 ^ m) = bpow radix2 m) by (apply IZR_pow2; lia).
  assert (M24 : (2 ^ m <= 2 ^ 24)%Z) by (apply Z.pow_le_mono_r; lia).
  destruct (of_Z32 1 ltac:(lia)) as [F1 V1].
  assert (B24 : bpow radix2 m <= 16777216) by (rewrite <- EM; apply IZR_le in M24; simpl in M24; lra).
  assert (B25 : bpow radix2 25 = 33554432) by (simpl; lra).
  destruct (fadd_le (r_ind r) (of_Z 1) (bpow radix2 25) F F1) as (G & V & _).
  { apply fmt32_b; lia. } { apply bpow_lt; lia. } { rewrite V1, Rabs_pos_eq; lra. }
  rewrite V1 in V.
  assert (U0 : (to_usize (r_ind r) < 2 ^ m + 1)%Z).
  { apply usize_lt; [exact F|exact P|lia|]. rewrite plus_IZR, EM. lra. }
  assert (U1 : (to_usize (fadd (r_ind r) (of_Z 1)) < len)%Z).
  { apply usize_lt; [exact G|rewrite V; apply rnd_nonneg; lra|lia|]. rewrite V.
    destruct (Z.eq_dec m 24) as [->|N].
    - apply Rle_lt_trans with (bpow radix2 24); [|rewrite <- EM; apply IZR_lt; lia].
      rewrite <- (rnd_absorb 24) by lia. apply rnd_le. change (bpow radix2 (24 - 24)) with 1. lra.
    - apply Rle_lt_trans with (IZR (2 ^ m + 1)); [|apply IZR_lt; lia].
      assert (2 ^ m <= 2 ^ 23)%Z by (apply Z.pow_le_mono_r; lia).
      apply rnd_le_fmt; [apply fmt32_Z; lia|]. rewrite plus_IZR, EM. lra. }
  pose proof (to_usize_nonneg (r_ind r)) as N0. pose proof (to_usize_nonneg (fadd (r_ind r) (of_Z 1))) as N1.
  unfold resampler_process. fold len. rewrite !to_usize_trunc, L. set (i := to_usize (r_ind r)) in *.
  destruct (Z.leb_spec len i) as [X|_]; [lia|]. cbn [andb].
  unfold usize_add. destruct (Z.leb_spec (i + 1) u64_max) as [_|X]; [|unfold u64_max in *; lia]. cbn [bind].
  cbn [Z.eqb negb]. rewrite andb_false_r. destruct (Z.leb_spec len (i + 1)) as [X|_]; [lia|].
  rewrite !(index_ok (r_data r) _ mono_new) by (fold len; lia). cbn [bind]. eexists. reflexivity.
Qed.

Lemma slow_run m r : playing r -> (0 <= m <= 24)%Z -> (2 ^ m + 1 < Z.of_nat (length (r_data r)))%Z ->
  B2R (step r) <= bpow radix2 (m - 24) -> B2R (r_ind r) <= bpow radix2 m ->
  forall n, exists ys r', rcalls n r = Ok (ys, r') /\ B2R (r_ind r') <= bpow radix2 m.
Proof.
  intros Pl Hm HL Hs HB n. revert r Pl HL Hs HB. induction n as [|n IH]; intros r Pl HL Hs HB; [exists [], r; auto|].
  destruct (process_below r m Pl Hm HL HB) as (y & E).
  assert (EM : IZR (2 ^ m) = bpow radix2 m) by (apply IZR_pow2; lia).
  assert (Q : B2R (r_ind r) < IZR (Z.of_nat (length (r_data r)))).
  { apply Rle_lt_trans with (1 := HB). rewrite <- EM. apply IZR_lt. lia. }
  destruct (advance_pos r Pl Q) as (P1 & V1 & S1 & D1).
  destruct (IH (advance r)) as (ys & r' & E' & B'); [exact P1|rewrite D1; exact HL|rewrite S1; exact Hs| |].
  { rewrite V1, <- (rnd_absorb m) by lia. apply rnd_le. lra. }
  exists (y :: ys), r'. rewrite rcalls_S, E. cbn [bind]. rewrite E'. auto.
Qed.

(** a track longer than 2^m + 1 samples, played with a step between 2^(m-25) and 2^(m-24),
    stops moving at sample 2^m and repeats it for ever *)
Lemma slow_sticks e m r : (e <= 126)%Z -> within e (r_data r) -> playing r -> (0 <= m <= 24)%Z ->
  (2 ^ m + 1 < Z.of_nat (length (r_data r)))%Z ->
  bpow radix2 (m - 25) < B2R (step r) <= bpow radix2 (m - 24) -> B2R (r_ind r) <= bpow radix2 m ->
  exists N, forall n, exists ys r', rcalls n r = Ok (ys, r') /\
    forall i, (N <= i < n)%nat -> is_finite (nth i ys f0) = true /\
      B2R (nth i ys f0) = B2R (sample_at (r_data r) (Z.to_nat (2 ^ m))).
Proof.
  intros He W Pl Hm HL Hs HB.
  assert (EM : IZR (2 ^ m) = bpow radix2 m) by (apply IZR_pow2; lia).
  assert (M24 : (2 ^ m <= 2 ^ 24)%Z) by (apply Z.pow_le_mono_r; lia).
  set (N := Z.to_nat (up (bpow radix2 m / (B2R (step r) - bpow radix2 (m - 25))))). exists N.
  intro n. destruct (slow_run m r Pl Hm HL ltac:(lra) HB n) as (ys & r' & E & _).
  exists ys, r'. split; [exact E|]. intros i Hi.
  destruct (rcalls_nth n i r ys r' ltac:(lia) E) as (zs & r1 & r2 & E1 & E2).
  destruct (rcalls_playing _ _ _ _ Pl E1) as (P1 & S1 & D1 & M1).
  assert (U : B2R (r_ind r1) <= bpow radix2 m).
  { destruct (slow_run m r Pl Hm HL ltac:(lra) HB i) as (ys' & r'' & E' & B'). rewrite E1 in E'. injection E' as _ <-. exact B'. }
  assert (Lo : bpow radix2 m <= B2R (r_ind r1)).
  { apply (not_after m Hm i r zs r1 (bpow radix2 m) Pl E1); [lra|rewrite <- EM; apply IZR_le; lia|].
    assert (X : bpow radix2 m <= INR i * (B2R (step r) - bpow radix2 (m - 25))).
    { set (t := B2R (step r) - bpow radix2 (m - 25)) in *. assert (T : 0 < t) by (unfold t; lra).
      assert (A : bpow radix2 m / t <= INR i).
      { destruct (archimed (bpow radix2 m / t)) as [A _]. apply Rlt_le. apply Rlt_le_trans with (1 := A).
        rewrite INR_IZR_INZ. apply IZR_le. unfold N in Hi. fold t in Hi. lia. }
      apply Rmult_le_compat_r with (r := t) in A; [|lra]. replace (bpow radix2 m / t * t) with (bpow radix2 m) in A by (field; lra). exact A. }
    destruct Pl as (_ & _ & P0 & _). lra. }
  assert (V : B2R (r_ind r1) = bpow radix2 m) by lra.
  destruct (of_Z32 (2 ^ m) ltac:(lia)) as [FZ VZ].
  assert (Ei : r_ind r1 = of_Z (2 ^ m)).
  { apply fin_eq; [apply P1|exact FZ|rewrite VZ, EM; exact V|]. rewrite V. pose proof (bpow_gt_0 radix2 m). lra. }
  destruct (process_inv _ _ _ E2) as [(_ & _ & X & _)|(j & _ & _ & Ey & _)].
  - exfalso. rewrite Ei, to_usize_Z in X by lia. rewrite D1 in X. lia.
  - rewrite Ey, Ei, D1, ffract_Z, to_usize_Z by lia.
    destruct (within_at e (r_data r) (Z.to_nat (2 ^ m)) W) as [F1 H1]. destruct (within_at e (r_data r) (Z.to_nat j) W) as [F2 H2].
    exact (mix_0 e _ _ He F1 F2 H1 H2).
Qed.

Lemma slow_player e m data (rate speed : f64) : (e <= 126)%Z -> within e data -> (0 <= m <= 24)%Z ->
  (2 ^ m + 1 < Z.of_nat (length data) <= 2 ^ 60)%Z -> fin rate -> 1 <= B2R rate <= 1048576 ->
  fin speed -> / 1048576 <= B2R speed <= 1048576 ->
  let c := B2R rate * B2R speed / 48000 in
  bpow radix2 (m - 25) * (1 + bpow radix2 (-21)) <= c <= bpow radix2 (m - 24) * (1 - bpow radix2 (-21)) ->
  exists N, forall n, exists ys r', rcalls n (player data rate speed) = Ok (ys, r') /\
    forall i, (N <= i < n)%nat -> is_finite (nth i ys f0) = true /\ B2R (nth i ys f0) = held data (2 ^ m).
Proof.
  intros He W Hm HL Fr Hr Fs Hs c Hc.
  destruct (player_playing data rate speed Fr Hr Fs Hs ltac:(lia)) as (Pl & P0).
  destruct (step_near data rate speed Fr Hr Fs Hs) as (_ & S0). fold c in S0.
  assert (2 ^ m > 0)%Z by (apply Z.lt_gt, Z.pow_pos_nonneg; lia).
  rewrite <- (sample_held data) by lia.
  apply (slow_sticks e m (player data rate speed)); try assumption.
  - apply HL.
  - pose proof (bpow_gt_0 radix2 (m - 25)) as X. pose proof (bpow_gt_0 radix2 (m - 24)) as Y.
    change (bpow radix2 (-22)) with (/ 4194304) in S0. change (bpow radix2 (-21)) with (/ 2097152) in Hc. lra.
  - rewrite P0. apply bpow_ge_0.
Qed.

(** just below a power of two, the sample after the next is taken for the next *)
Lemma misread e k r y r' : (-124 <= e <= 125)%Z -> within e (r_data r) -> playing r -> (0 <= k <= 22)%Z ->
  (2 ^ k + 1 < Z.of_nat (length (r_data r)) <= 2 ^ 24)%Z -> B2R (r_ind r) = bpow radix2 k - bpow radix2 (k - 24) ->
  resampler_process r = Ok (y, r') ->
  let x1 := held (r_data r) (2 ^ k - 1) in let x3 := held (r_data r) (2 ^ k + 1) in
  fin y /\ Rabs (B2R y - (x1 + (1 - bpow radix2 (k - 24)) * (x3 - x1))) <= bpow radix2 (e - 22).
Proof.
  intros He W Pl Hk HL V E x1 x3. pose proof Pl as (L & F & P & _).
  destruct (neighbour_up (r_ind r) k F Hk V) as (Fl & Nx).
  assert (K0 : (0 < 2 ^ k)%Z) by (apply Z.pow_pos_nonneg; lia).
  assert (EM : IZR (2 ^ k) = bpow radix2 k) by (apply IZR_pow2; lia).
  pose proof (bpow_gt_0 radix2 (k - 24)) as S0.
  assert (Q : B2R (r_ind r) < IZR (Z.of_nat (length (r_data r)))).
  { rewrite V. apply Rlt_trans with (IZR (2 ^ k)); [lra|]. apply IZR_lt. lia. }
  destruct (process_value r y r' Pl ltac:(lia) Q E) as (I & ->). rewrite Fl, Nx.
  destruct (Z.leb_spec (Z.of_nat (length (r_data r))) (2 ^ k - 1 + 1)) as [X|_]; [lia|].
  destruct (ffract_near (r_ind r) F P) as (Ff & Hf & Hd). rewrite Fl, V, minus_IZR, EM in Hd.
  replace (bpow radix2 k - bpow radix2 (k - 24) - (bpow radix2 k - 1)) with (1 - bpow radix2 (k - 24)) in Hd by ring.
  assert (S1 : bpow radix2 (k - 24) <= / 4).
  { apply Rle_trans with (bpow radix2 (-2)); [apply bpow_le; lia|simpl; lra]. }
  destruct (within_at e (r_data r) (Z.to_nat (2 ^ k - 1)) W) as [F1 H1].
  destruct (within_at e (r_data r) (Z.to_nat (2 ^ k + 1)) W) as [F2 H2].
  destruct (mix_near e _ _ _ (1 - bpow radix2 (k - 24)) He Ff Hf ltac:(lra) Hd F1 F2 H1 H2) as [G B].
  split; [exact G|]. unfold x1, x3. rewrite <- !sample_held by lia. exact B.
Qed.
