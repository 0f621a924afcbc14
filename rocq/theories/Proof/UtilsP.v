(** * Proofs about clamp/clerp, durations and decibels *)

From Coq Require Import ZArith List Bool Reals Lra Lia Psatz.
From Flocq Require Import Core.Core IEEE754.BinarySingleNaN.
From Verif Require Import Model.Floats Model.Utils Spec.RealNum Spec.Libm
  Proof.FloatFacts Proof.SampleFormatP Proof.FormatsP Proof.LibmP.
Import ListNotations.
Local Open Scope R_scope.

(** ** C14 *)
Lemma clamp64_unfold (x x1 x2 : f64) :
  clamp num64 x x1 x2 =
  let a := if flt x2 x1 then x2 else x1 in
  let b := if flt x2 x1 then x1 else x2 in
  if flt b x then b else if flt x a then a else x.
Proof. unfold clamp. cbn [nlt num64 carrier]. destruct (flt x2 x1); reflexivity. Qed.

Lemma clamp64_ext (x x1 x2 : f64) : is_nan x = false -> is_nan x1 = false -> is_nan x2 = false ->
  is_nan (clamp num64 x x1 x2) = false /\
  ext (clamp num64 x x1 x2) = Rmin (Rmax (ext x1) (ext x2)) (Rmax (Rmin (ext x1) (ext x2)) (ext x)) /\
  (Rmin (ext x1) (ext x2) <= ext x <= Rmax (ext x1) (ext x2) -> clamp num64 x x1 x2 = x).
Proof.
  intros N N1 N2. rewrite clamp64_unfold. cbv zeta.
  destruct (flt x2 x1) eqn:S.
  - apply flt_ext in S; try assumption.
    rewrite (Rmax_left (ext x1) (ext x2)), (Rmin_right (ext x1) (ext x2)) by lra.
    destruct (flt x1 x) eqn:A.
    + apply flt_ext in A; try assumption. split; [assumption|]. split.
      * rewrite Rmin_left; [reflexivity|]. unfold Rmax. destruct Rle_dec; lra.
      * intros; lra.
    + apply flt_ext_false in A; try assumption. destruct (flt x x2) eqn:B.
      * apply flt_ext in B; try assumption. split; [assumption|]. split; [|intros; lra].
        rewrite Rmax_left by lra. rewrite Rmin_right by lra. reflexivity.
      * apply flt_ext_false in B; try assumption. split; [assumption|]. split; [|reflexivity].
        rewrite Rmax_right by lra. rewrite Rmin_right by lra. reflexivity.
  - apply flt_ext_false in S; try assumption.
    rewrite (Rmax_right (ext x1) (ext x2)), (Rmin_left (ext x1) (ext x2)) by lra.
    destruct (flt x2 x) eqn:A.
    + apply flt_ext in A; try assumption. split; [assumption|]. split.
      * rewrite Rmin_left; [reflexivity|]. unfold Rmax. destruct Rle_dec; lra.
      * intros; lra.
    + apply flt_ext_false in A; try assumption. destruct (flt x x1) eqn:B.
      * apply flt_ext in B; try assumption. split; [assumption|]. split; [|intros; lra].
        rewrite Rmax_left by lra. rewrite Rmin_right by lra. reflexivity.
      * apply flt_ext_false in B; try assumption. split; [assumption|]. split; [|reflexivity].
        rewrite Rmax_right by lra. rewrite Rmin_right by lra. reflexivity.
Qed.

Lemma ext_eq_feq (x y : f64) : is_nan x = false -> is_nan y = false -> ext x = ext y -> feq x y = true.
Proof.
  intros Nx Ny E. destruct (is_finite x) eqn:Fx; destruct (is_finite y) eqn:Fy.
  - rewrite (ext_fin x Fx), (ext_fin y Fy) in E. unfold feq. rewrite Beqb_correct by assumption.
    apply Req_bool_true, E.
  - exfalso. rewrite (ext_fin x Fx) in E. pose proof (abs_B2R_lt x) as A. apply Rabs_lt_inv in A.
    destruct y as [|[]| |]; try discriminate; unfold ext in E; lra.
  - exfalso. rewrite (ext_fin y Fy) in E. pose proof (abs_B2R_lt y) as A. apply Rabs_lt_inv in A.
    destruct x as [|[]| |]; try discriminate; unfold ext in E; lra.
  - pose proof (bpow_gt_0 radix2 1024).
    destruct x as [|[]| |]; try discriminate; destruct y as [|[]| |]; try discriminate; unfold ext in E; try reflexivity; exfalso; lra.
Qed.

Lemma clamp64_spec (x x1 x2 : f64) : is_nan x = false -> is_nan x1 = false -> is_nan x2 = false ->
  let c := clamp num64 x x1 x2 in
  (fle x1 x2 = true -> fle x1 c = true /\ fle c x2 = true) /\
  (fle x2 x1 = true -> fle x2 c = true /\ fle c x1 = true) /\
  (fle x1 x = true -> fle x x2 = true -> c = x) /\
  (fle x2 x = true -> fle x x1 = true -> c = x) /\
  feq c (clamp num64 x x2 x1) = true.
Proof.
  intros N N1 N2. cbv zeta.
  destruct (clamp64_ext x x1 x2 N N1 N2) as (A & B & C).
  destruct (clamp64_ext x x2 x1 N N2 N1) as (A' & B' & C').
  set (c := clamp num64 x x1 x2) in *.
  repeat split; intros.
  - apply fle_ext; try assumption. apply fle_ext in H; try assumption.
    rewrite B. unfold Rmin, Rmax. repeat destruct Rle_dec; lra.
  - apply fle_ext; try assumption. apply fle_ext in H; try assumption.
    rewrite B. unfold Rmin, Rmax. repeat destruct Rle_dec; lra.
  - apply fle_ext; try assumption. apply fle_ext in H; try assumption.
    rewrite B. unfold Rmin, Rmax. repeat destruct Rle_dec; lra.
  - apply fle_ext; try assumption. apply fle_ext in H; try assumption.
    rewrite B. unfold Rmin, Rmax. repeat destruct Rle_dec; lra.
  - apply C. apply fle_ext in H; try assumption. apply fle_ext in H0; try assumption.
    unfold Rmin, Rmax. repeat destruct Rle_dec; lra.
  - apply C. apply fle_ext in H; try assumption. apply fle_ext in H0; try assumption.
    unfold Rmin, Rmax. repeat destruct Rle_dec; lra.
  - apply ext_eq_feq; try assumption. rewrite B, B'.
    rewrite (Rmax_comm (ext x2)), (Rmin_comm (ext x2)). reflexivity.
Qed.

Lemma clerp_outside (x x1 x2 y1 y2 : f64) : is_nan x = false -> fle x1 x2 = true ->
  (flt x2 x = true -> clerp num64 x x1 x2 y1 y2 = clerp num64 x2 x1 x2 y1 y2) /\
  (flt x x1 = true -> clerp num64 x x1 x2 y1 y2 = clerp num64 x1 x1 x2 y1 y2).
Proof.
  intros N H.
  assert (N1 : is_nan x1 = false) by (destruct x1; try reflexivity; destruct x2; discriminate H).
  assert (N2 : is_nan x2 = false) by (destruct x2; try reflexivity; destruct x1 as [[]|[]| |[] ? ? ?]; discriminate H).
  pose proof H as H'. apply fle_ext in H'; try assumption.
  assert (S : flt x2 x1 = false) by (apply flt_ext_false; assumption).
  assert (R1 : forall z : f64, is_nan z = false -> flt z z = false) by (intros z Nz; apply flt_ext_false; try assumption; lra).
  split; intro L; unfold clerp; rewrite !clamp64_unfold, S; cbv zeta.
  - rewrite L, (R1 x2 N2). rewrite S. reflexivity.
  - apply flt_ext in L as L'; try assumption.
    assert (E : flt x2 x = false) by (apply flt_ext_false; try assumption; lra).
    rewrite E, L, S, (R1 x1 N1). reflexivity.
Qed.

Lemma clerp_at_x1 (x1 x2 y1 y2 : f64) : fin x1 -> fin x2 -> fin y1 -> B2R x1 < B2R x2 ->
  fin (fdiv (fsub y2 y1) (fsub x2 x1)) ->
  fin (clerp num64 x1 x1 x2 y1 y2) /\ B2R (clerp num64 x1 x1 x2 y1 y2) = B2R y1.
Proof.
  intros F1 F2 Fy Hlt Fs.
  assert (E : clamp num64 x1 x1 x2 = x1).
  { destruct (clamp64_spec x1 x1 x2) as (_ & _ & K & _); try (apply not_nan_fin; assumption).
    apply K; apply fle_true; try assumption; lra. }
  unfold clerp, lerp. rewrite E. cbn [nadd nsub nmul ndiv num64 carrier].
  set (k := fdiv (fsub y2 y1) (fsub x2 x1)) in *.
  destruct (fsub_ok x1 x1 F1 F1) as [A B].
  { rewrite Rminus_diag_eq by reflexivity. rewrite rnd_0, Rabs_R0. apply bpow_gt_0. }
  rewrite Rminus_diag_eq, rnd_0 in B by reflexivity.
  destruct (fmul_ok k (fsub x1 x1) Fs A) as [C D].
  { rewrite B, Rmult_0_r, rnd_0, Rabs_R0. apply bpow_gt_0. }
  rewrite B, Rmult_0_r, rnd_0 in D.
  destruct (fadd_ok (fmul k (fsub x1 x1)) y1 C Fy) as [G K].
  { rewrite D, Rplus_0_l, rnd_B2R. apply abs_B2R_lt. }
  split; [exact G|]. rewrite K, D, Rplus_0_l, rnd_B2R. reflexivity.
Qed.

(** exact arithmetic *)
Lemma clampR_spec (x x1 x2 : R) :
  clamp numR x x1 x2 = Rmin (Rmax x1 x2) (Rmax (Rmin x1 x2) x).
Proof.
  unfold clamp. cbn [nlt numR carrier].
  destruct (Rlt_bool_spec x2 x1).
  - destruct (Rlt_bool_spec x1 x); [|destruct (Rlt_bool_spec x x2)];
    unfold Rmin, Rmax; repeat destruct Rle_dec; lra.
  - destruct (Rlt_bool_spec x2 x); [|destruct (Rlt_bool_spec x x1)];
    unfold Rmin, Rmax; repeat destruct Rle_dec; lra.
Qed.

Lemma clerpR_convex (x x1 x2 y1 y2 : R) : x1 <> x2 ->
  exists t, 0 <= t <= 1 /\ clerp numR x x1 x2 y1 y2 = y1 + t * (y2 - y1) /\
    t = (clamp numR x x1 x2 - x1) / (x2 - x1).
Proof.
  intro N. exists ((clamp numR x x1 x2 - x1) / (x2 - x1)). split; [|split; [|reflexivity]].
  - rewrite clampR_spec.
    destruct (Rlt_le_dec x1 x2) as [L|L].
    + rewrite (Rmax_right x1 x2), (Rmin_left x1 x2) by lra.
      set (c := Rmin x2 (Rmax x1 x)).
      assert (x1 <= c <= x2) by (unfold c, Rmin, Rmax; repeat destruct Rle_dec; lra).
      split; [apply Rmult_le_pos; [lra|apply Rlt_le, Rinv_0_lt_compat; lra]|].
      apply Rmult_le_reg_r with (x2 - x1); [lra|]. unfold Rdiv. rewrite Rmult_assoc, Rinv_l by lra. lra.
    + assert (L' : x2 < x1) by lra.
      rewrite (Rmax_left x1 x2), (Rmin_right x1 x2) by lra.
      set (c := Rmin x1 (Rmax x2 x)).
      assert (x2 <= c <= x1) by (unfold c, Rmin, Rmax; repeat destruct Rle_dec; lra).
      replace ((c - x1) / (x2 - x1)) with ((x1 - c) / (x1 - x2)) by (field; lra).
      split; [apply Rmult_le_pos; [lra|apply Rlt_le, Rinv_0_lt_compat; lra]|].
      apply Rmult_le_reg_r with (x1 - x2); [lra|]. unfold Rdiv. rewrite Rmult_assoc, Rinv_l by lra. lra.
  - unfold clerp, lerp. cbn [nadd nsub nmul ndiv numR carrier]. field. lra.
Qed.

Lemma clerpR_exact (x x' x1 x2 y1 y2 : R) : x1 <> x2 ->
  Rmin y1 y2 <= clerp numR x x1 x2 y1 y2 <= Rmax y1 y2 /\
  clerp numR x1 x1 x2 y1 y2 = y1 /\ clerp numR x2 x1 x2 y1 y2 = y2 /\
  (x1 < x2 -> y1 <= y2 -> x <= x' -> clerp numR x x1 x2 y1 y2 <= clerp numR x' x1 x2 y1 y2).
Proof.
  intro N. split; [|split; [|split]].
  - destruct (clerpR_convex x x1 x2 y1 y2 N) as (t & T & E & _). rewrite E.
    unfold Rmin, Rmax. repeat destruct Rle_dec; split; nra.
  - unfold clerp. rewrite clampR_spec.
    replace (Rmin (Rmax x1 x2) (Rmax (Rmin x1 x2) x1)) with x1
      by (unfold Rmin, Rmax; repeat destruct Rle_dec; lra).
    unfold lerp. cbn [nadd nsub nmul ndiv numR carrier]. field. lra.
  - unfold clerp. rewrite clampR_spec.
    replace (Rmin (Rmax x1 x2) (Rmax (Rmin x1 x2) x2)) with x2
      by (unfold Rmin, Rmax; repeat destruct Rle_dec; lra).
    unfold lerp. cbn [nadd nsub nmul ndiv numR carrier]. field. lra.
  - intros L Hy Hx.
    destruct (clerpR_convex x x1 x2 y1 y2 N) as (t & T & E & Et).
    destruct (clerpR_convex x' x1 x2 y1 y2 N) as (t' & T' & E' & Et').
    rewrite E, E'. assert (t <= t').
    { rewrite Et, Et'. apply Rmult_le_compat_r; [apply Rlt_le, Rinv_0_lt_compat; lra|].
      rewrite !clampR_spec. unfold Rmin, Rmax. repeat destruct Rle_dec; lra. }
    nra.
Qed.

(** ** C15, C16: durations *)
Lemma SR64_ok : fin SR64 /\ B2R SR64 = 48000.
Proof. apply (of_Z64 48000). lia. Qed.
Lemma GIGA_ok : fin (of_Z GIGA : f64) /\ B2R (of_Z GIGA : f64) = 1000000000.
Proof. apply (of_Z64 GIGA). unfold GIGA. lia. Qed.

Lemma fadd_int (x y : f64) a b : fin x -> fin y -> B2R x = IZR a -> B2R y = IZR b ->
  (Z.abs (a + b) <= 2 ^ 53)%Z -> fin (fadd x y) /\ B2R (fadd x y) = IZR (a + b).
Proof.
  intros Fx Fy Ex Ey H. pose proof (fmt64_Z _ H) as Hf.
  destruct (fadd_ok x y Fx Fy) as [A B]; rewrite Ex, Ey, <- plus_IZR in *.
  - rewrite rnd_fmt by exact Hf. rewrite <- abs_IZR. pose proof bpow_1024_big.
    apply Rle_lt_trans with (IZR (2 ^ 53)); [apply IZR_le; exact H|]. apply Rlt_trans with (IZR (2 ^ 200)); [apply IZR_lt; reflexivity|assumption].
  - rewrite rnd_fmt in B by exact Hf. auto.
Qed.
Lemma fmul_int (x y : f64) a b : fin x -> fin y -> B2R x = IZR a -> B2R y = IZR b ->
  (Z.abs (a * b) <= 2 ^ 53)%Z -> fin (fmul x y) /\ B2R (fmul x y) = IZR (a * b).
Proof.
  intros Fx Fy Ex Ey H. pose proof (fmt64_Z _ H) as Hf.
  destruct (fmul_ok x y Fx Fy) as [A B]; rewrite Ex, Ey, <- mult_IZR in *.
  - rewrite rnd_fmt by exact Hf. rewrite <- abs_IZR. pose proof bpow_1024_big.
    apply Rle_lt_trans with (IZR (2 ^ 53)); [apply IZR_le; exact H|]. apply Rlt_trans with (IZR (2 ^ 200)); [apply IZR_lt; reflexivity|assumption].
  - rewrite rnd_fmt in B by exact Hf. auto.
Qed.

Lemma finite_int m e Hb k : B2R (B754_finite false m e Hb : f64) = IZR k -> (0 <= k)%Z ->
  ((0 <= e)%Z -> (Zpos m * 2 ^ e = k)%Z) /\ ((e < 0)%Z -> (Zpos m = k * 2 ^ (- e))%Z).
Proof.
  intros H Hk. simpl in H. unfold F2R in H. simpl in H. split; intro He.
  - apply eq_IZR. rewrite mult_IZR, IZR_pow2 by exact He. exact H.
  - apply eq_IZR. rewrite mult_IZR, IZR_pow2 by lia. rewrite <- H.
    rewrite Rmult_assoc, <- bpow_plus. replace (e + - e)%Z with 0%Z by ring. simpl. ring.
Qed.

Lemma div_ne_exact a k : (0 <= k)%Z -> div_ne (a * 2 ^ k) k = a.
Proof.
  intro Hk. assert (0 < 2 ^ k)%Z by (apply Z.pow_pos_nonneg; lia).
  unfold div_ne. rewrite Z.div_mul, Z.mod_mul by lia. cbv zeta.
  destruct (Z.ltb_spec (2 * 0) (2 ^ k)); lia.
Qed.

(** whole seconds below 2^36 (times small factors) convert exactly in every mode *)
Lemma from_secs_int md (x : f64) q : fin x -> (0 < q <= 2 ^ 20)%Z -> B2R x = IZR (48000 * q) ->
  from_secs_f64 md x = Ok (mkDur (48000 * q) 0).
Proof.
  intros Fx Hq Ex.
  assert (N : nanos_of_f64 md x = Ok (48000 * q * GIGA)%Z).
  { destruct x as [s|s| |s m e Hb]; try discriminate.
    { exfalso. change (IZR 0 = IZR (48000 * q)) in Ex. apply eq_IZR in Ex. lia. }
    assert (s = false) as ->.
    { apply (Bsign_pos (B754_finite s m e Hb)). rewrite Ex. apply IZR_lt. lia. }
    destruct (finite_int m e Hb _ Ex ltac:(lia)) as [P1 P2].
    destruct md.
    - cbn [nanos_of_f64]. set (x := B754_finite false m e Hb) in *.
      destruct GIGA_ok as [FG VG].
      assert (FM : fmt64 (IZR (48000 * q) * 1000000000)).
      { replace (IZR (48000 * q) * 1000000000) with (IZR (732421875 * q) * bpow radix2 16).
        - apply fmt_FLT; [lia|unfold SpecFloat.emin; lia].
        - change (bpow radix2 16) with 65536. rewrite <- !mult_IZR. f_equal. ring. }
      destruct (fmul_ok x (of_Z GIGA) Fx FG) as [A B].
      { rewrite Ex, VG, rnd_fmt by exact FM. rewrite <- mult_IZR, <- abs_IZR.
        apply Rle_lt_trans with (2 := bpow_1024_big). apply IZR_le. lia. }
      rewrite Ex, VG, rnd_fmt in B by exact FM. rewrite <- mult_IZR in B.
      rewrite A. rewrite (proj2 (fle_true f0 _ eq_refl A)).
      2:{ rewrite B. change (B2R (f0 : f64)) with (IZR 0). apply IZR_le. lia. }
      cbn [andb]. f_equal. rewrite Btrunc_Ztrunc, B, Ztrunc_IZR. reflexivity.
    - cbn [nanos_of_f64]. f_equal. destruct (Z.leb_spec 0 e) as [He|He].
      + rewrite P1 by exact He. reflexivity.
      + rewrite P2 by exact He. assert (0 < 2 ^ (- e))%Z by (apply Z.pow_pos_nonneg; lia).
        replace (48000 * q * 2 ^ (- e) * GIGA)%Z with ((48000 * q * GIGA) * 2 ^ (- e))%Z by ring.
        apply Z.div_mul. lia.
    - cbn [nanos_of_f64]. f_equal. destruct (Z.leb_spec 0 e) as [He|He].
      + rewrite P1 by exact He. reflexivity.
      + rewrite P2 by exact He.
        replace (48000 * q * 2 ^ (- e) * GIGA)%Z with ((48000 * q * GIGA) * 2 ^ (- e))%Z by ring.
        apply div_ne_exact. lia. }
  unfold from_secs_f64. rewrite N. cbn [bind].
  assert (48000 * q * GIGA < 2 ^ 64 * GIGA)%Z by (unfold GIGA; lia).
  destruct (Z.ltb_spec (48000 * q * GIGA) (2 ^ 64 * GIGA)); [|lia].
  rewrite Z.div_mul, Z.mod_mul by (unfold GIGA; lia). reflexivity.
Qed.

Lemma samples_seconds_round_trip md n : (0 < n <= 2 ^ 20)%Z ->
  exists d, samples_to_seconds md n = Ok d /\ secs d = (48000 * n)%Z /\ nanos d = 0%Z /\
    seconds_to_samples d = (48000 * 48000 * n)%Z.
Proof.
  intro Hn. destruct SR64_ok as [FS VS].
  destruct (of_Z64 n ltac:(lia)) as [Fn Vn].
  destruct (fmul_int (of_Z n) SR64 n 48000 Fn FS Vn VS ltac:(lia)) as [A B].
  exists (mkDur (48000 * n) 0). split; [|split; [reflexivity|split; [reflexivity|]]].
  - unfold samples_to_seconds. apply from_secs_int; [exact A|exact Hn|].
    rewrite B. f_equal. ring.
  - unfold seconds_to_samples, as_secs_f64. cbn [secs nanos].
    destruct (of_Z64 (48000 * n) ltac:(lia)) as [F1 V1].
    destruct GIGA_ok as [FG VG].
    destruct (B2R_of_SF0 (fdiv (of_Z 0) (of_Z GIGA) : f64) false) as [F0 V0]; [vm_compute; reflexivity|].
    destruct (fadd_int (of_Z (48000 * n)) (fdiv (of_Z 0) (of_Z GIGA)) (48000 * n) 0 F1 F0 V1 V0 ltac:(lia)) as [C D].
    destruct (fmul_int _ SR64 _ 48000 C FS D VS ltac:(lia)) as [E G].
    destruct (fround_ok _ E) as [K L]. unfold to_usize. rewrite (to_int_fin _ _ _ K), L, G.
    rewrite Ztrunc_IZR, ZnearestA_IZR. unfold u64_max. lia.
Qed.

(** seconds_to_samples *)
Definition dur_ok (d : duration) : Prop := (0 <= secs d < 2 ^ 32)%Z /\ (0 <= nanos d < GIGA)%Z.
Definition dur_R (d : duration) : R := IZR (secs d) + IZR (nanos d) / 1000000000.

Lemma as_secs_ok d : dur_ok d ->
  fin (as_secs_f64 d) /\
  B2R (as_secs_f64 d) = rnd64 (IZR (secs d) + rnd64 (IZR (nanos d) / 1000000000)) /\
  0 <= rnd64 (IZR (nanos d) / 1000000000) <= 1 /\
  0 <= B2R (as_secs_f64 d) <= bpow radix2 32.
Proof.
  intros [[S1 S2] [N1 N2]]. unfold GIGA in N2.
  destruct (of_Z64 (secs d) ltac:(lia)) as [Fs Vs]. destruct (of_Z64 (nanos d) ltac:(lia)) as [Fn Vn].
  destruct GIGA_ok as [FG VG].
  assert (R1 : 0 <= IZR (nanos d)) by (apply IZR_le; lia).
  assert (R2 : IZR (nanos d) <= 999999999) by (apply IZR_le; lia).
  assert (R3 : 0 <= IZR (secs d)) by (apply IZR_le; lia).
  assert (R4 : IZR (secs d) <= 4294967295) by (apply IZR_le; lia).
  assert (Q : 0 <= IZR (nanos d) / 1000000000 <= 1) by lra.
  destruct (fdiv_le (of_Z (nanos d)) (of_Z GIGA) 1 Fn) as (A & B & C);
    [rewrite VG; lra|apply (fmt64_Z 1); lia|pose proof bpow_1024_big; lra|rewrite Vn, VG; apply Rabs_le; lra|].
  rewrite Vn, VG in B.
  assert (Q' : 0 <= rnd64 (IZR (nanos d) / 1000000000) <= 1).
  { split; [apply rnd_nonneg; lra|apply rnd_le_fmt; [apply (fmt64_Z 1); lia|lra]]. }
  destruct (fadd_le (of_Z (secs d)) (fdiv (of_Z (nanos d)) (of_Z GIGA)) (bpow radix2 32) Fs A) as (D & E & G);
    [apply fmt64_b; lia|apply bpow_lt; lia| |].
  { rewrite Vs, B. change (bpow radix2 32) with 4294967296. apply Rabs_le. lra. }
  rewrite Vs, B in E. unfold as_secs_f64. split; [exact D|]. split; [exact E|]. split; [exact Q'|].
  rewrite E. split; [apply rnd_nonneg; lra|].
  apply rnd_le_fmt; [apply fmt64_b; lia|]. change (bpow radix2 32) with 4294967296. lra.
Qed.

Lemma s2s_formula d : dur_ok d ->
  seconds_to_samples d = ZnearestA (rnd64 (B2R (as_secs_f64 d) * 48000)) /\
  0 <= rnd64 (B2R (as_secs_f64 d) * 48000).
Proof.
  intro Hd. destruct (as_secs_ok d Hd) as (A & B & C & D). destruct SR64_ok as [FS VS].
  destruct (fmul_le (as_secs_f64 d) SR64 (bpow radix2 48) A FS) as (E & G & H);
    [apply fmt64_b; lia|apply bpow_lt; lia| |].
  { rewrite VS, Rabs_pos_eq by lra. change (bpow radix2 32) with 4294967296 in D.
    change (bpow radix2 48) with 281474976710656. lra. }
  rewrite VS in G.
  assert (P : 0 <= rnd64 (B2R (as_secs_f64 d) * 48000)) by (apply rnd_nonneg; lra).
  split; [|exact P].
  unfold seconds_to_samples. destruct (fround_ok _ E) as [K L]. unfold to_usize.
  rewrite (to_int_fin _ _ _ K), L, Ztrunc_IZR, G.
  assert (P1 : (0 <= ZnearestA (rnd64 (B2R (as_secs_f64 d) * 48000)))%Z) by (apply ZnearestA_ge_Z; exact P).
  assert (P2 : (ZnearestA (rnd64 (B2R (as_secs_f64 d) * 48000)) <= 2 ^ 48)%Z).
  { apply ZnearestA_le_Z. rewrite IZR_pow2 by lia. rewrite G, Rabs_pos_eq in H by exact P. exact H. }
  unfold u64_max. lia.
Qed.

Lemma s2s_accurate d : dur_ok d ->
  Rabs (IZR (seconds_to_samples d) - 48000 * dur_R d) <= / 2 + / 32.
Proof.
  intro Hd. destruct (s2s_formula d Hd) as [F P]. destruct (as_secs_ok d Hd) as (A & B & C & D).
  destruct Hd as [[S1 S2] [N1 N2]]. unfold GIGA in N2.
  assert (R1 : 0 <= IZR (nanos d)) by (apply IZR_le; lia).
  assert (R2 : IZR (nanos d) <= 999999999) by (apply IZR_le; lia).
  assert (R3 : 0 <= IZR (secs d)) by (apply IZR_le; lia).
  assert (R4 : IZR (secs d) <= 4294967295) by (apply IZR_le; lia).
  rewrite F. set (a := B2R (as_secs_f64 d)) in *. set (q := rnd64 (IZR (nanos d) / 1000000000)) in *.
  assert (E1 : Rabs (q - IZR (nanos d) / 1000000000) <= bpow radix2 (-54)).
  { apply (rnd_err (prec:=53) (emax:=1024) 0); [unfold SpecFloat.emin; lia|]. simpl. apply Rabs_le. lra. }
  assert (E2 : Rabs (a - (IZR (secs d) + q)) <= bpow radix2 (-22)).
  { rewrite B. apply (rnd_err (prec:=53) (emax:=1024) 32); [unfold SpecFloat.emin; lia|].
    change (bpow radix2 32) with 4294967296. apply Rabs_le. lra. }
  assert (E3 : Rabs (rnd64 (a * 48000) - a * 48000) <= bpow radix2 (-6)).
  { apply (rnd_err (prec:=53) (emax:=1024) 48); [unfold SpecFloat.emin; lia|].
    change (bpow radix2 48) with 281474976710656. change (bpow radix2 32) with 4294967296 in D.
    rewrite Rabs_pos_eq by lra. lra. }
  pose proof (ZnearestA_half (rnd64 (a * 48000))) as E4.
  change (bpow radix2 (-54)) with (/ 18014398509481984) in E1.
  change (bpow radix2 (-22)) with (/ 4194304) in E2.
  change (bpow radix2 (-6)) with (/ 64) in E3.
  apply Rabs_le_inv in E1. apply Rabs_le_inv in E2. apply Rabs_le_inv in E3. apply Rabs_le_inv in E4.
  unfold dur_R. apply Rabs_le. lra.
Qed.

Lemma s2s_mono d d' : dur_ok d -> dur_ok d' -> dur_R d <= dur_R d' ->
  (seconds_to_samples d <= seconds_to_samples d')%Z.
Proof.
  intros Hd Hd' H. destruct (s2s_formula d Hd) as [F _]. destruct (s2s_formula d' Hd') as [F' _].
  rewrite F, F'. apply ZnearestA_le. apply rnd_le. apply Rmult_le_compat_r; [lra|].
  destruct (as_secs_ok d Hd) as (_ & B & C & _). destruct (as_secs_ok d' Hd') as (_ & B' & C' & _).
  rewrite B, B'. apply rnd_le.
  destruct Hd as [_ [N1 N2]]. destruct Hd' as [_ [N1' N2']]. unfold GIGA in *.
  assert (R1 : 0 <= IZR (nanos d)) by (apply IZR_le; lia).
  assert (R2 : IZR (nanos d) <= 999999999) by (apply IZR_le; lia).
  assert (R1' : 0 <= IZR (nanos d')) by (apply IZR_le; lia).
  assert (R2' : IZR (nanos d') <= 999999999) by (apply IZR_le; lia).
  unfold dur_R in H.
  destruct (Z.lt_trichotomy (secs d) (secs d')) as [L|[L|L]].
  - assert (IZR (secs d) + 1 <= IZR (secs d')) by (rewrite <- plus_IZR; apply IZR_le; lia). lra.
  - rewrite L in *. apply Rplus_le_compat_l. apply rnd_le. lra.
  - assert (IZR (secs d') + 1 <= IZR (secs d)) by (rewrite <- plus_IZR; apply IZR_le; lia). lra.
Qed.

(** ** C17: decibels in exact arithmetic *)
Definition linear_to_db_R : R -> R := linear_to_db_g Rmult log10R 20.
Definition db_to_linear_R : R -> R := db_to_linear_g Rdiv Rpower 10 20.

Lemma db_R_laws :
  (forall x, linear_to_db_R (db_to_linear_R x) = x) /\
  (forall g, 0 < g -> db_to_linear_R (linear_to_db_R g) = g) /\
  (forall x, 0 < db_to_linear_R x) /\
  (forall x y, x < y -> db_to_linear_R x < db_to_linear_R y) /\
  db_to_linear_R 0 = 1 /\
  (forall x y, db_to_linear_R (x + y) = db_to_linear_R x * db_to_linear_R y).
Proof.
  assert (L10 : 0 < ln 10) by (rewrite <- ln_1; apply ln_increasing; lra).
  unfold linear_to_db_R, db_to_linear_R, linear_to_db_g, db_to_linear_g, log10R, Rpower.
  repeat split.
  - intro x. rewrite ln_exp. field. lra.
  - intros g Hg. replace (20 * (ln g / ln 10) / 20 * ln 10) with (ln g) by (field; lra). apply exp_ln, Hg.
  - intro x. apply exp_pos.
  - intros x y H. apply exp_increasing. apply Rmult_lt_compat_r; [exact L10|]. lra.
  - replace (0 / 20 * ln 10) with 0 by field. apply exp_0.
  - intros x y. rewrite <- exp_plus. f_equal. field.
Qed.

(** ** C18: normalize *)
Lemma fold_sum_ok (t : list f32) : forall (acc : f32) k, fin acc -> (0 <= k)%Z ->
  Rabs (B2R acc) <= IZR k * bpow radix2 60 ->
  (k + Z.of_nat (length t) <= 2 ^ 24)%Z ->
  (forall s, In s t -> fin s /\ Rabs (B2R s) <= bpow radix2 60) ->
  fin (fold_left fadd t acc) /\
  Rabs (B2R (fold_left fadd t acc)) <= IZR (k + Z.of_nat (length t)) * bpow radix2 60.
Proof.
  induction t as [|s t IH]; intros acc k Fa Hk Ha Hl Ht.
  - simpl. rewrite Z.add_0_r. auto.
  - cbn [fold_left length] in *. destruct (Ht s (or_introl eq_refl)) as [Fs Hs].
    destruct (fadd_le acc s (IZR (k + 1) * bpow radix2 60) Fa Fs) as (A & B & C).
    + apply fmt32_mul_bpow; [apply fmt32_Z|]; lia.
    + apply Rle_lt_trans with (bpow radix2 24 * bpow radix2 60).
      * apply Rmult_le_compat_r; [apply bpow_ge_0|]. rewrite <- IZR_pow2 by lia. apply IZR_le. lia.
      * rewrite <- bpow_plus. apply bpow_lt. lia.
    + rewrite plus_IZR. apply Rle_trans with (1 := Rabs_triang _ _). lra.
    + replace (k + Z.of_nat (S (length t)))%Z with (k + 1 + Z.of_nat (length t))%Z in * by lia.
      apply IH; try assumption; try lia. intros x Hx. apply Ht. right. exact Hx.
Qed.

Lemma norm_dc_ok (t : list f32) : t <> [] -> (Z.of_nat (length t) <= 2 ^ 24)%Z ->
  (forall s, In s t -> fin s /\ Rabs (B2R s) <= bpow radix2 60) ->
  fin (norm_dc t) /\ Rabs (B2R (norm_dc t)) <= bpow radix2 60.
Proof.
  intros Hne Hl Ht.
  destruct (fold_sum_ok t f0 0 eq_refl (Z.le_refl 0)) as [A B]; try assumption.
  { simpl. rewrite Rabs_R0, Rmult_0_l. lra. }
  rewrite Z.add_0_l in B.
  assert (Hp : (0 < Z.of_nat (length t))%Z) by (destruct t; [congruence|simpl; lia]).
  destruct (of_Z32 (Z.of_nat (length t)) ltac:(lia)) as [Fn Vn].
  assert (Rp : 0 < IZR (Z.of_nat (length t))) by (apply IZR_lt; exact Hp).
  destruct (fdiv_le (fold_left fadd t f0) (of_Z (Z.of_nat (length t))) (bpow radix2 60) A) as (C & _ & D).
  - rewrite Vn. lra.
  - apply fmt32_b; lia.
  - apply bpow_lt; lia.
  - rewrite Vn. unfold Rdiv. rewrite Rabs_mult, (Rabs_pos_eq (/ _)) by (apply Rlt_le, Rinv_0_lt_compat, Rp).
    apply Rmult_le_reg_r with (IZR (Z.of_nat (length t))); [exact Rp|].
    rewrite Rmult_assoc, Rinv_l by lra. lra.
  - split; assumption.
Qed.

Lemma norm_max_gen dc (t : list f32) : forall mx : f32, fin mx -> 0 <= B2R mx ->
  (forall s, In s t -> fin (fsub s dc)) ->
  let m := fold_left (fun mx s => if fgt (fabs (fsub s dc)) mx then fabs (fsub s dc) else mx) t mx in
  fin m /\ B2R mx <= B2R m /\
  (forall s, In s t -> Rabs (B2R (fsub s dc)) <= B2R m) /\
  (B2R m = B2R mx \/ exists s, In s t /\ B2R m = Rabs (B2R (fsub s dc))).
Proof.
  induction t as [|s t IH]; intros mx Fm Pm Ht.
  - simpl. split; [exact Fm|]. split; [lra|]. split; [tauto|left; reflexivity].
  - cbn [fold_left].
    assert (Fs : fin (fsub s dc)) by (apply Ht; left; reflexivity).
    assert (Fa : fin (fabs (fsub s dc))) by (rewrite fabs_fin; exact Fs).
    assert (Ht' : forall s, In s t -> fin (fsub s dc)) by (intros x Hx; apply Ht; right; exact Hx).
    rewrite (fgt_R _ _ Fa Fm), fabs_R.
    destruct (Rlt_bool_spec (B2R mx) (Rabs (B2R (fsub s dc)))) as [L|L].
    + destruct (IH (fabs (fsub s dc)) Fa) as (A & B & C & D);
        [rewrite fabs_R; apply Rabs_pos|exact Ht'|]. rewrite fabs_R in B, D.
      split; [exact A|]. split; [lra|]. split.
      * intros x [<-|Hx]; [exact B|apply C, Hx].
      * right. destruct D as [D|(x & Hx & D)]; [exists s|exists x]; (split; [simpl; auto|exact D]).
    + destruct (IH mx Fm Pm Ht') as (A & B & C & D).
      split; [exact A|]. split; [lra|]. split.
      * intros x [<-|Hx]; [lra|apply C, Hx].
      * destruct D as [D|(x & Hx & D)]; [left; exact D|right; exists x; simpl; auto].
Qed.

Lemma Rabs_mult_pos a b : 0 <= b -> Rabs (a * b) = Rabs a * b.
Proof. intro H. rewrite Rabs_mult, (Rabs_pos_eq b) by exact H. reflexivity. Qed.
Lemma rnd32_abs x : Rabs (rnd32 x) = rnd32 (Rabs x).
Proof.
  unfold Rabs at 2. destruct (Rcase_abs x) as [L|L].
  - rewrite rnd_opp. rewrite Rabs_left1; [reflexivity|]. apply rnd_nonpos. lra.
  - rewrite Rabs_pos_eq; [reflexivity|]. apply rnd_nonneg. lra.
Qed.

Lemma normalize_peak (m : libm) (db : f64) (t : list f32) (a b : f32) :
  let target := to32 (db_to_linear m db) in
  (Z.of_nat (length t) <= 2 ^ 24)%Z ->
  (forall s, In s t -> fin s /\ Rabs (B2R s) <= bpow radix2 60) ->
  In a t -> In b t -> bpow radix2 (-59) <= Rabs (B2R a - B2R b) ->
  fin target -> bpow radix2 (-60) <= B2R target <= bpow radix2 60 ->
  exists p : R, 0 < p /\ Rabs (p - B2R target) <= bpow radix2 (-22) * B2R target /\
    (forall o, In o (normalize m db t) -> fin o /\ Rabs (B2R o) <= p) /\
    (exists o, In o (normalize m db t) /\ Rabs (B2R o) = p).
Proof.
  intros target Hl Ht Ia Ib Hab Ft Hp. fold target in Ft, Hp.
  destruct (norm_dc_ok t) as [Fd Hd]; try assumption. { intros ->; inversion Ia. }
  set (dc := norm_dc t) in *.
  assert (Hs : forall s, In s t -> fin (fsub s dc) /\ B2R (fsub s dc) = rnd32 (B2R s - B2R dc) /\
      Rabs (B2R (fsub s dc)) <= bpow radix2 61).
  { intros s Is. destruct (Ht s Is) as [Fs Bs]. apply fsub_le; try assumption.
    - apply fmt32_b; lia.
    - apply bpow_lt; lia.
    - change 61%Z with (60 + 1)%Z. rewrite bpow_double. unfold Rminus.
      apply Rle_trans with (1 := Rabs_triang _ _). rewrite Rabs_Ropp. lra. }
  destruct (norm_max_gen dc t f0 eq_refl (Rle_refl 0)) as (FM & _ & UM & AM).
  { intros s Is. apply Hs, Is. }
  fold (norm_max dc t) in FM, UM, AM. set (mx := norm_max dc t) in *.
  (* the maximum is at least 2^-60 *)
  assert (LM : bpow radix2 (-60) <= B2R mx).
  { assert (Hx : exists s, In s t /\ bpow radix2 (-60) <= Rabs (B2R s - B2R dc)).
    { change (-59)%Z with (-60 + 1)%Z in Hab. rewrite bpow_double in Hab.
      destruct (Rle_lt_dec (bpow radix2 (-60)) (Rabs (B2R a - B2R dc))) as [L|L]; [exists a; auto|].
      exists b. split; [exact Ib|].
      replace (B2R a - B2R b) with ((B2R a - B2R dc) + - (B2R b - B2R dc)) in Hab by ring.
      pose proof (Rabs_triang (B2R a - B2R dc) (- (B2R b - B2R dc))) as T. rewrite Rabs_Ropp in T. lra. }
    destruct Hx as (s & Is & L). apply Rle_trans with (2 := UM s Is).
    destruct (Hs s Is) as (_ & -> & _). rewrite rnd32_abs. apply rnd_ge_fmt; [apply fmt32_b; lia|exact L]. }
  assert (EM : exists s, In s t /\ B2R mx = Rabs (B2R (fsub s dc))).
  { destruct AM as [E|E]; [|exact E]. exfalso. change (B2R (f0 : f32)) with 0 in E.
    pose proof (bpow_gt_0 radix2 (-60)). lra. }
  assert (HM : B2R mx <= bpow radix2 61).
  { destruct EM as (s & Is & ->). apply Hs, Is. }
  pose proof (bpow_gt_0 radix2 (-60)) as P60.
  assert (Pm : 0 < B2R mx) by lra. assert (PT : 0 < B2R target) by lra.
  (* the factor *)
  assert (Q1 : B2R target / B2R mx <= bpow radix2 120).
  { apply Rmult_le_reg_r with (B2R mx); [exact Pm|]. unfold Rdiv. rewrite Rmult_assoc, Rinv_l by lra.
    apply Rle_trans with (bpow radix2 120 * bpow radix2 (-60)).
    - rewrite <- bpow_plus. simpl Z.add. lra.
    - apply Rmult_le_compat_l; [apply bpow_ge_0|lra]. }
  assert (Q2 : bpow radix2 (-121) <= B2R target / B2R mx).
  { apply Rmult_le_reg_r with (B2R mx); [exact Pm|]. unfold Rdiv. rewrite Rmult_assoc, Rinv_l by lra.
    apply Rle_trans with (bpow radix2 (-121) * bpow radix2 61).
    - apply Rmult_le_compat_l; [apply bpow_ge_0|lra].
    - rewrite <- bpow_plus. simpl Z.add. lra. }
  pose proof (bpow_gt_0 radix2 (-121)) as P121.
  destruct (fdiv_le target mx (bpow radix2 120) Ft) as (FF & VF & _).
  { lra. } { apply fmt32_b; lia. } { apply bpow_lt; lia. } { rewrite Rabs_pos_eq; lra. }
  unfold normalize, norm_factor. fold dc. fold mx. fold target. set (f := fdiv target mx) in *.
  destruct (rnd_rel (prec:=24) (emax:=128) (B2R target / B2R mx)) as (d1 & D1 & E1).
  { rewrite Rabs_pos_eq by lra. apply Rle_trans with (2 := Q2). apply bpow_le. unfold SpecFloat.emin. lia. }
  change (Rabs d1 <= / 16777216) in D1. apply Rabs_le_inv in D1.
  assert (Pf : B2R f * B2R mx = B2R target * (1 + d1)).
  { rewrite VF, E1. field. lra. }
  assert (Pf0 : 0 < B2R f).
  { rewrite VF, E1. apply Rmult_lt_0_compat; lra. }
  set (p := rnd32 (B2R mx * B2R f)).
  assert (Pb : Rabs (B2R mx * B2R f) <= bpow radix2 61).
  { rewrite Rmult_comm, Pf, Rabs_pos_eq by (apply Rmult_le_pos; lra). change 61%Z with (60 + 1)%Z. rewrite bpow_double.
    apply Rle_trans with (B2R target * 2); [apply Rmult_le_compat_l; lra|lra]. }
  assert (O : forall s, In s t -> fin (fmul (fsub s dc) f) /\
      B2R (fmul (fsub s dc) f) = rnd32 (B2R (fsub s dc) * B2R f) /\ Rabs (B2R (fmul (fsub s dc) f)) <= p).
  { intros s Is. destruct (Hs s Is) as (Fs & _ & _).
    destruct (fmul_le (fsub s dc) f (bpow radix2 61) Fs FF) as (A & B & _).
    - apply fmt32_b; lia.
    - apply bpow_lt; lia.
    - apply Rle_trans with (2 := Pb). rewrite !Rabs_mult_pos by lra. apply Rmult_le_compat_r; [lra|].
      rewrite (Rabs_pos_eq (B2R mx)) by lra. apply UM, Is.
    - split; [exact A|]. split; [exact B|]. rewrite B, rnd32_abs. apply rnd_le.
      rewrite Rabs_mult_pos by lra. apply Rmult_le_compat_r; [lra|]. apply UM, Is. }
  destruct (rnd_rel (prec:=24) (emax:=128) (B2R mx * B2R f)) as (d2 & D2 & E2).
  { rewrite Rmult_comm, Pf, Rabs_pos_eq by (apply Rmult_le_pos; lra).
    apply Rle_trans with (bpow radix2 (-61)); [apply bpow_le; unfold SpecFloat.emin; lia|].
    assert (bpow radix2 (-60) = 2 * bpow radix2 (-61)) by (rewrite <- bpow_double; reflexivity).
    apply Rle_trans with (B2R target * / 2); [lra|apply Rmult_le_compat_l; lra]. }
  change (Rabs d2 <= / 16777216) in D2. apply Rabs_le_inv in D2.
  assert (Ep : p = B2R target * ((1 + d1) * (1 + d2))).
  { unfold p. rewrite E2, (Rmult_comm (B2R mx)), Pf. ring. }
  assert (Ed : Rabs ((1 + d1) * (1 + d2) - 1) <= / 4194304) by (apply Rabs_le; nra).
  exists p. split; [|split; [|split]].
  - rewrite Ep. apply Rmult_lt_0_compat; [lra|]. apply Rmult_lt_0_compat; lra.
  - rewrite Ep. replace (B2R target * ((1 + d1) * (1 + d2)) - B2R target)
      with (B2R target * ((1 + d1) * (1 + d2) - 1)) by ring.
    rewrite Rabs_mult, (Rabs_pos_eq (B2R target)) by lra.
    change (bpow radix2 (-22)) with (/ 4194304). nra.
  - intros o Io. apply in_map_iff in Io. destruct Io as (s & <- & Is). split; apply (O s Is).
  - destruct EM as (s & Is & Es). exists (fmul (fsub s dc) f). split.
    + apply in_map_iff. exists s. auto.
    + destruct (O s Is) as (_ & -> & _). rewrite rnd32_abs, Rabs_mult_pos by lra. rewrite <- Es. reflexivity.
Qed.

(** a track of samples all equal to the computed mean *)
Lemma fsub_self_zero (s dc : f32) : feq s dc = true -> fin s -> exists b, fsub s dc = B754_zero b.
Proof.
  intros E Fs.
  assert (Fd : fin dc).
  { destruct dc as [|[]| |]; try reflexivity; destruct s as [[]|[]| |[] ? ? ?]; discriminate. }
  unfold feq in E. rewrite Beqb_correct in E by assumption.
  destruct (Req_bool_spec (B2R s) (B2R dc)) as [E'|]; [|discriminate].
  destruct (fsub_ok s dc Fs Fd) as [A B].
  { rewrite Rminus_diag_eq by exact E'. rewrite rnd_0, Rabs_R0. apply bpow_gt_0. }
  rewrite Rminus_diag_eq, rnd_0 in B by exact E'.
  destruct (fsub s dc) as [b|b| |b mm e Hb]; try discriminate A.
  - exists b. reflexivity.
  - exfalso. simpl in B. apply eq_0_F2R in B. destruct b; discriminate.
Qed.

Lemma normalize_flat (m : libm) (db : f64) (t : list f32) :
  (forall s, In s t -> fin s /\ feq s (norm_dc t) = true) ->
  forall o, In o (normalize m db t) -> is_nan o = true.
Proof.
  intros Ht.
  assert (Z : norm_max (norm_dc t) t = f0).
  { unfold norm_max. generalize (norm_dc t) Ht. clear Ht. intros dc.
    induction t as [|s t IH]; intro Ht; [reflexivity|]. cbn [fold_left].
    destruct (Ht s (or_introl eq_refl)) as [Fs Es]. destruct (fsub_self_zero s dc Es Fs) as [b ->].
    replace (fgt (fabs (B754_zero b : f32)) f0) with false by reflexivity.
    apply IH. intros x Hx. apply Ht. right. exact Hx. }
  intros o Io. unfold normalize in Io. apply in_map_iff in Io. destruct Io as (s & <- & Is).
  destruct (Ht s Is) as [Fs Es]. destruct (fsub_self_zero s _ Es Fs) as [b ->].
  unfold norm_factor. rewrite Z. destruct (to32 (db_to_linear m db)) as [[]|[]| |[] ? ? ?]; destruct b; reflexivity.
Qed.

Lemma Rdiv_1 x : x / 1 = x.
Proof. field. Qed.
Lemma single_dc (s : f32) : fin s -> feq s (norm_dc [s]) = true.
Proof.
  intro Fs. destruct (fadd_ok f0 s eq_refl Fs) as [A B].
  { change (B2R (f0 : f32)) with 0. rewrite Rplus_0_l, rnd_B2R. apply abs_B2R_lt. }
  change (B2R (f0 : f32)) with 0 in B. rewrite Rplus_0_l, rnd_B2R in B.
  destruct (of_Z32 1 ltac:(lia)) as [F1 V1].
  unfold norm_dc. cbn [fold_left length]. change (Z.of_nat 1) with 1%Z.
  destruct (fdiv_ok (fadd f0 s) (of_Z 1) A) as [C D].
  { rewrite V1. lra. }
  { rewrite V1, B, Rdiv_1, rnd_B2R. apply abs_B2R_lt. }
  unfold feq. rewrite Beqb_correct by assumption. apply Req_bool_true.
  rewrite D, V1, B, Rdiv_1, rnd_B2R. reflexivity.
Qed.

Lemma silence_dc n s : (Z.of_nat n <= 2 ^ 24)%Z ->
  In s (repeat (f0 : f32) n) -> fin s /\ feq s (norm_dc (repeat f0 n)) = true.
Proof.
  intros Hn H. pose proof (repeat_spec _ _ _ H) as ->. split; [reflexivity|].
  assert (E : fold_left fadd (repeat (f0 : f32) n) f0 = f0).
  { clear. induction n as [|n IH]; [reflexivity|]. cbn [repeat fold_left].
    replace (fadd (f0 : f32) f0) with (f0 : f32) by reflexivity. exact IH. }
  unfold norm_dc. rewrite E, repeat_length.
  destruct n as [|n]; [inversion H|].
  destruct (of_Z32 (Z.of_nat (S n)) ltac:(lia)) as [F1 V1].
  destruct (fdiv_ok (f0 : f32) (of_Z (Z.of_nat (S n))) eq_refl) as [C D].
  { rewrite V1. apply IZR_neq. lia. }
  { change (B2R (f0 : f32)) with 0. unfold Rdiv. rewrite Rmult_0_l, rnd_0, Rabs_R0. apply bpow_gt_0. }
  unfold feq. rewrite Beqb_correct; [|reflexivity|exact C]. apply Req_bool_true.
  rewrite D. change (B2R (f0 : f32)) with 0. unfold Rdiv. rewrite Rmult_0_l, rnd_0. reflexivity.
Qed.
