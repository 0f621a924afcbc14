(** * Echo as a comb filter: impulse response, accuracy, decay *)
From Coq Require Import ZArith List Bool Reals Lra Lia Psatz.
From Flocq Require Import Core.Core IEEE754.BinarySingleNaN.
From Verif Require Import Model.Floats Model.Modifiers Spec.Comb
  Proof.FloatFacts Proof.SampleFormatP Proof.WavP Proof.FormatsP Proof.ModifiersP Proof.FilterNanP.
Import ListNotations.
Local Open Scope R_scope.

(** ** the closed form obeys the recurrence *)
Lemma comb_small n g x k : (k < n)%nat -> comb n g x k = x k.
Proof. intro H. unfold comb. rewrite Nat.div_small by exact H. simpl. rewrite Nat.sub_0_r. ring. Qed.
Lemma comb_rec n g x k : (0 < n)%nat -> (n <= k)%nat -> comb n g x k = x k + g * comb n g x (k - n).
Proof.
  intros Hn H. unfold comb. assert (E : (k / n = S ((k - n) / n))%nat).
  { replace k with ((k - n) + 1 * n)%nat at 1 by lia. rewrite Nat.div_add by lia. lia. }
  rewrite E, decomp_sum by lia. cbn [pred]. rewrite scal_sum. f_equal; [simpl; rewrite Nat.sub_0_r; ring|].
  apply sum_eq. intros i _. replace (k - S i * n)%nat with (k - n - i * n)%nat by lia. simpl. ring.
Qed.

(** ** the program's echo follows it *)
Notation u24 := (/ 16777216).
Lemma rnd32_gen x B : Rabs x <= B -> Rabs (rnd32 x - x) <= B * u24 + bpow radix2 (-150).
Proof.
  intro H. destruct (rnd_err_gen (prec:=24) (emax:=128) x) as (d & e & D & E & ->).
  replace (x * (1 + d) + e - x) with (x * d + e) by ring. eapply Rle_trans; [apply Rabs_triang|]. rewrite Rabs_mult.
  change (bpow radix2 (- (24))) with u24 in D. change (bpow radix2 (SpecFloat.emin 24 128 - 1)) with (bpow radix2 (-150)) in E.
  assert (Rabs x * Rabs d <= B * u24) by (apply Rmult_le_compat; try apply Rabs_pos; assumption). lra.
Qed.

Lemma echo_tracks (n : nat) (g : f32) (X : R) (B : f32) (xs : list f32) :
  (0 < n)%nat -> fin g -> fin B -> bpow radix2 (-125) <= B2R B -> 0 <= X -> Rabs (B2R g) < 1 ->
  Rabs (B2R g) * B2R B + X <= B2R B ->
  (forall x, In x xs -> fin x /\ Rabs (B2R x) <= X) ->
  exists ys e', run_res echo_process (mkEcho (repeat f0 n) g) xs = Ok (ys, e') /\ length ys = length xs /\
    forall k, (k < length xs)%nat -> fin (nth k ys f0) /\
      Rabs (B2R (nth k ys f0) - comb n (B2R g) (fun i => B2R (nth i xs f0)) k) <= bpow radix2 (-22) * B2R B / (1 - Rabs (B2R g)).
Proof.
  intros Hn Fg FB HB X0 G1 HC Hx.
  destruct (echo_recurrence n g xs Hn) as (ys & q' & E & L & _ & REC).
  destruct (echo_bounded n g X (B2R B) xs Hn Fg (fmt_B2R B)) as (ys2 & e2 & E2 & BD).
  { split; [exact HB|]. pose proof (abs_B2R_lt B) as U. apply Rabs_lt_inv in U. lra. } { exact X0. } { exact HC. } { exact Hx. }
  rewrite E in E2. injection E2 as <- <-.
  exists ys, (mkEcho q' g). split; [exact E|]. split; [exact L|].
  set (b := B2R B) in *. set (gg := Rabs (B2R g)) in *. assert (G0 : 0 <= gg) by apply Rabs_pos.
  assert (TINY : bpow radix2 (-150) <= b * u24 * / 2).
  { apply Rle_trans with (bpow radix2 (-125) * u24 * / 2); [|apply Rmult_le_compat_r; [lra|]; apply Rmult_le_compat_r; lra].
    right. change u24 with (bpow radix2 (-24)). change (/ 2) with (bpow radix2 (-1)). rewrite <- !bpow_plus. reflexivity. }
  assert (b0 : 0 < b) by (pose proof (bpow_gt_0 radix2 (-125)); lra).
  set (D := bpow radix2 (-22) * b / (1 - gg)).
  assert (DD : gg * D + bpow radix2 (-22) * b = D) by (unfold D; field; lra).
  assert (D0 : bpow radix2 (-22) * b <= D).
  { assert (0 <= D) by (unfold D, Rdiv; apply Rmult_le_pos; [apply Rmult_le_pos; [apply bpow_ge_0|lra]|left; apply Rinv_0_lt_compat; lra]). nra. }
  change (bpow radix2 (-22)) with (/ 4194304) in DD, D0.
  intro k. induction k as [k IH] using lt_wf_ind. intro Hk.
  assert (Fk : fin (nth k ys f0)) by (apply BD, nth_In; lia). split; [exact Fk|].
  destruct (REC k (nth k xs f0)) as (o & Ho & Hy); [apply List.nth_error_nth'; exact Hk|].
  destruct (Hx (nth k xs f0)) as [Fx Bx]; [apply nth_In; exact Hk|].
  assert (Fo : fin o /\ Rabs (B2R o) <= b /\
     Rabs (B2R (nth k xs f0) + B2R g * B2R o - comb n (B2R g) (fun i => B2R (nth i xs f0)) k) <= gg * D).
  { destruct (Nat.ltb_spec k n) as [C|C].
    - subst o. split; [reflexivity|]. change (B2R (f0 : f32)) with 0 at 1. rewrite Rabs_R0. split; [lra|].
      rewrite comb_small by exact C. change (B2R (f0 : f32)) with 0. replace (_ - _) with 0 by ring. rewrite Rabs_R0. nra.
    - assert (K1 : (k - n < k)%nat) by lia. destruct (IH _ K1 ltac:(lia)) as [_ I].
      assert (Eo : nth (k - n) ys f0 = o) by (apply List.nth_error_nth; exact Ho). rewrite Eo in I.
      destruct (BD o) as [Fo Bo]; [rewrite <- Eo; apply nth_In; lia|]. split; [exact Fo|]. split; [exact Bo|].
      rewrite comb_rec by lia.
      replace (_ - _) with (B2R g * (B2R o - comb n (B2R g) (fun i => B2R (nth i xs f0)) (k - n))) by ring.
      rewrite Rabs_mult. fold gg. apply Rmult_le_compat_l; [exact G0|exact I]. }
  destruct Fo as (Fo & Bo & I).
  assert (Ey : nth k ys f0 = fadd (fmul o g) (nth k xs f0)) by (apply List.nth_error_nth; exact Hy).
  assert (BM : Rabs (B2R o * B2R g) <= b).
  { rewrite Rabs_mult. fold gg. pose proof (Rabs_pos (B2R o)). nra. }
  assert (Lb : b < bpow radix2 128) by (pose proof (abs_B2R_lt B) as U; apply Rabs_lt_inv in U; unfold b; lra).
  destruct (fmul_le o g b Fo Fg (fmt_B2R B) Lb BM) as (FM & RM & BM').
  pose proof (rnd32_gen _ _ BM) as EM. rewrite <- RM in EM.
  assert (BS : Rabs (B2R (fmul o g) + B2R (nth k xs f0)) <= 2 * b).
  { eapply Rle_trans; [apply Rabs_triang|]. nra. }
  pose proof (rnd32_gen _ _ BS) as ES.
  assert (RY : B2R (nth k ys f0) = rnd32 (B2R (fmul o g) + B2R (nth k xs f0))).
  { rewrite Ey in Fk |- *. apply fadd_inv; assumption. }
  rewrite <- RY in ES. fold D.
  apply Rabs_le_inv in EM, ES, I. apply Rabs_le. lra.
Qed.

Lemma rnd32_Rabs x : Rabs (rnd32 x) = rnd32 (Rabs x).
Proof. symmetry. apply (round_NE_abs radix2 _). Qed.

(** ** silence after any state: every output is the rounded product of the one a delay earlier with g *)
Lemma echo_silence (q : list f32) (g : f32) (m : nat) : q <> [] -> fin g -> Rabs (B2R g) <= 1 -> (forall o, In o q -> fin o) ->
  exists ys e', run_res echo_process (mkEcho q g) (repeat f0 m) = Ok (ys, e') /\ length ys = m /\
    forall k, (k < m)%nat -> fin (nth k ys f0) /\
      B2R (nth k ys f0) = rnd32 (B2R (nth k (q ++ ys) f0) * B2R g).
Proof.
  intros Hq Fg G1 Hf. destruct (echo_run_gen (repeat f0 m) q g Hq) as (ys & q' & E & L1 & L2 & H).
  rewrite repeat_length in L1. exists ys, (mkEcho q' g). split; [exact E|]. split; [exact L1|].
  assert (Q0 : (0 < length q)%nat) by (destruct q; [congruence|simpl; lia]).
  intro k. induction k as [k IH] using lt_wf_ind. intro Hk.
  destruct (H k f0) as (o & Ho & Hy).
  { rewrite nth_error_repeat by exact Hk. reflexivity. }
  assert (Eo : nth k (q ++ ys) f0 = o) by (apply List.nth_error_nth; exact Ho).
  assert (Fo : fin o).
  { destruct (Nat.lt_ge_cases k (length q)) as [C|C].
    - apply Hf. rewrite <- Eo, app_nth1 by exact C. apply nth_In, C.
    - rewrite <- Eo, app_nth2 by exact C. apply IH; lia. }
  assert (Ey : nth k ys f0 = fadd (fmul o g) f0) by (apply List.nth_error_nth; exact Hy).
  rewrite Ey, Eo.
  destruct (fmul_le o g (Rabs (B2R o)) Fo Fg) as (FM & RM & BM).
  { apply generic_format_abs, fmt_B2R. } { apply abs_B2R_lt. }
  { rewrite Rabs_mult. pose proof (Rabs_pos (B2R o)). nra. }
  destruct (fadd_le (fmul o g) f0 (Rabs (B2R (fmul o g))) FM) as (FA & RA & _).
  { reflexivity. } { apply generic_format_abs, fmt_B2R. } { apply abs_B2R_lt. }
  { change (B2R (f0 : f32)) with 0. rewrite Rplus_0_r. lra. }
  change (B2R (f0 : f32)) with 0 in RA. rewrite Rplus_0_r, rnd_B2R in RA. split; [exact FA|]. rewrite RA. exact RM.
Qed.

Lemma half_tiny x : Rabs x <= bpow radix2 (-150) -> rnd32 x = 0.
Proof.
  intro H. assert (R0 : rnd32 (bpow radix2 (-150)) = 0).
  { unfold round, scaled_mantissa, cexp. rewrite mag_bpow.
    change (SpecFloat.fexp 24 128 (-150 + 1)) with (-149)%Z. rewrite <- bpow_plus.
    change (bpow radix2 (-150 + - -149)) with (/ 2). unfold F2R. cbn [Fnum Fexp].
    assert (Z0 : ZnearestE (/ 2) = 0%Z).
    { unfold Znearest. assert (F : Zfloor (/ 2) = 0%Z) by (apply Zfloor_imp; simpl; lra). rewrite F.
      rewrite Rcompare_Eq by (simpl; lra). reflexivity. }
    rewrite Z0. ring. }
  assert (A : rnd32 (Rabs x) <= 0) by (rewrite <- R0; apply rnd_le; exact H).
  assert (B : 0 <= rnd32 (Rabs x)) by (apply rnd_nonneg, Rabs_pos).
  assert (C : Rabs (rnd32 x) = 0) by (rewrite rnd32_Rabs; lra).
  destruct (Req_dec (rnd32 x) 0) as [|N]; [assumption|]. apply Rabs_no_R0 in N. contradiction.
Qed.

(** with a gain of at most one half the echo dies out, whatever it was *)
Lemma echo_dies (q : list f32) (g : f32) (m : nat) : q <> [] -> fin g -> Rabs (B2R g) <= / 2 -> (forall o, In o q -> fin o) ->
  exists ys e', run_res echo_process (mkEcho q g) (repeat f0 m) = Ok (ys, e') /\
    forall k, (277 * length q <= k < m)%nat -> B2R (nth k ys f0) = 0.
Proof.
  intros Hq Fg G1 Hf. destruct (echo_silence q g m Hq Fg ltac:(lra) Hf) as (ys & e' & E & L & H).
  exists ys, e'. split; [exact E|].
  assert (Q0 : (0 < length q)%nat) by (destruct q; [congruence|simpl; lia]).
  assert (I : forall j k, (k < length q + m)%nat -> (j * length q <= k)%nat -> (j <= 277)%nat ->
    Rabs (B2R (nth k (q ++ ys) f0)) <= bpow radix2 (128 - Z.of_nat j)).
  { induction j as [|j IH]; intros k Hk Hj J.
    - left. apply abs_B2R_lt.
    - rewrite app_nth2 by lia. destruct (H (k - length q)%nat ltac:(lia)) as [_ V]. rewrite V.
      specialize (IH (k - length q)%nat ltac:(lia) ltac:(lia) ltac:(lia)).
      rewrite rnd32_Rabs. apply rnd_le_fmt; [apply fmt32_b; lia|]. rewrite Rabs_mult.
      replace (128 - Z.of_nat j)%Z with (128 - Z.of_nat (S j) + 1)%Z in IH by lia. rewrite bpow_double in IH.
      pose proof (Rabs_pos (B2R g)). pose proof (Rabs_pos (B2R (nth (k - length q) (q ++ ys) f0))). nra. }
  intros k [K1 K2]. destruct (H k K2) as [_ V]. rewrite V. apply half_tiny.
  specialize (I 277%nat k ltac:(lia) K1 ltac:(lia)). change (128 - Z.of_nat 277)%Z with (-150 + 1)%Z in I. rewrite bpow_double in I.
  rewrite Rabs_mult. pose proof (Rabs_pos (B2R g)). pose proof (Rabs_pos (B2R (nth k (q ++ ys) f0))). nra.
Qed.

Lemma over_half_tiny x : bpow radix2 (-150) < x -> 0 < rnd32 x.
Proof.
  intro H. pose proof (bpow_gt_0 radix2 (-150)) as P0. pose proof (bpow_gt_0 radix2 (-149)) as P1.
  destruct (Rle_dec (bpow radix2 (-149)) x) as [L|L].
  - apply Rlt_le_trans with (1 := P1). apply rnd_ge_fmt; [apply fmt_bpow; unfold SpecFloat.emin; lia|exact L].
  - unfold round, scaled_mantissa, cexp.
    assert (M : mag radix2 x = (-149)%Z :> Z) by (apply mag_unique_pos; change (-149 - 1)%Z with (-150)%Z; lra).
    rewrite M. change (SpecFloat.fexp 24 128 (-149)) with (-149)%Z.
    assert (E1 : bpow radix2 (- (-149)) * bpow radix2 (-149) = 1) by (rewrite <- bpow_plus; reflexivity).
    assert (E2 : bpow radix2 (-149) = 2 * bpow radix2 (-150)) by (change (-149)%Z with (-150 + 1)%Z; apply bpow_double).
    set (s := bpow radix2 (- (-149))) in *. assert (S0 : 0 < s) by apply bpow_gt_0.
    assert (Z1 : ZnearestE (x * s) = 1%Z).
    { apply Znearest_imp. simpl. apply Rabs_lt. nra. }
    rewrite Z1. unfold F2R. cbn [Fnum Fexp]. lra.
Qed.

(** above one half it never does *)
Lemma echo_survives (q : list f32) (g : f32) (m r : nat) : fin g -> / 2 < Rabs (B2R g) <= 1 -> (forall o, In o q -> fin o) ->
  (r < length q)%nat -> B2R (nth r q f0) <> 0 ->
  exists ys e', run_res echo_process (mkEcho q g) (repeat f0 m) = Ok (ys, e') /\
    forall j, (r + j * length q < m)%nat -> B2R (nth (r + j * length q) ys f0) <> 0.
Proof.
  intros Fg G1 Hf Hr N. assert (Hq : q <> []) by (destruct q; [simpl in Hr; lia|discriminate]).
  destruct (echo_silence q g m Hq Fg ltac:(lra) Hf) as (ys & e' & E & L & H).
  exists ys, e'. split; [exact E|].
  assert (S0 : forall v : f32, B2R v <> 0 -> rnd32 (B2R v * B2R g) <> 0).
  { intros v Nv Z. assert (T : bpow radix2 (-149) <= Rabs (B2R v)).
    { apply (abs_B2R_ge_emin 24 128 v). destruct v; try (elim Nv; reflexivity). reflexivity. }
    assert (P : bpow radix2 (-150) < Rabs (B2R v * B2R g)).
    { rewrite Rabs_mult. change (-149)%Z with (-150 + 1)%Z in T. rewrite bpow_double in T. pose proof (bpow_gt_0 radix2 (-150)). nra. }
    assert (Z' : rnd32 (Rabs (B2R v * B2R g)) = 0) by (rewrite <- rnd32_Rabs, Z; apply Rabs_R0).
    pose proof (over_half_tiny _ P). lra. }
  induction j as [|j IH]; intro Hj.
  - rewrite Nat.mul_0_l, Nat.add_0_r in *. destruct (H r Hj) as [_ V]. rewrite V, app_nth1 by exact Hr. apply S0, N.
  - destruct (H (r + S j * length q)%nat Hj) as [_ V]. rewrite V, app_nth2 by lia.
    replace (r + S j * length q - length q)%nat with (r + j * length q)%nat by lia. apply S0, IH. lia.
Qed.
