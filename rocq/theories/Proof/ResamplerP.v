(** * Proofs about MonoResampler *)

From Coq Require Import ZArith List Bool Reals Lra Lia Psatz.
From Flocq Require Import Core.Core IEEE754.BinarySingleNaN.
From Verif Require Import Model.Floats Model.Mono Model.Wav Model.Resampler
  Proof.FloatFacts Proof.SampleFormatP Proof.FormatsP Proof.WavP.
Import ListNotations.
Local Open Scope R_scope.

(** ** indices *)
Lemma index_ok {A} (l : list A) i d : (0 <= i < Z.of_nat (length l))%Z -> index l i = Ok (nth (Z.to_nat i) l d).
Proof.
  intro H. unfold index. destruct (Z.leb_spec 0 i); [|lia]. destruct (Z.ltb_spec i (Z.of_nat (length l))); [|lia].
  cbn [andb]. assert (L : (Z.to_nat i < length l)%nat) by lia. pose proof (List.nth_error_nth' l d L) as E. rewrite E. reflexivity.
Qed.
Lemma index_panic {A} (l : list A) i : (Z.of_nat (length l) <= i)%Z -> index l i = Panic.
Proof.
  intro H. unfold index. destruct (Z.ltb_spec i (Z.of_nat (length l))); [lia|]. rewrite andb_false_r. reflexivity.
Qed.

Lemma to_usize_trunc {p e} {Hp : Prec_gt_0 p} {He : Prec_lt_emax p e} (x : binary_float p e) :
  to_usize (ftrunc x) = to_usize x.
Proof.
  destruct (is_finite x) eqn:F.
  - destruct (ftrunc_ok x F) as [A B]. unfold to_usize. rewrite (to_int_fin _ _ _ A), (to_int_fin _ _ _ F), B, Ztrunc_IZR. reflexivity.
  - destruct x as [?|[]| |? ? ? ?]; try discriminate; reflexivity.
Qed.
Lemma to_usize_nonneg {p e} (x : binary_float p e) : (0 <= to_usize x <= u64_max)%Z.
Proof. destruct x as [s|[]| |s m ex Hb]; unfold to_usize, to_int, u64_max; lia. Qed.
Lemma to_usize_fin {p e} {Hp : Prec_gt_0 p} {He : Prec_lt_emax p e} (x : binary_float p e) n :
  fin x -> (0 <= n <= 2 ^ 60)%Z -> IZR n <= B2R x < IZR n + 1 -> to_usize x = n.
Proof.
  intros F Hn H. unfold to_usize. rewrite (to_int_fin _ _ _ F).
  assert (N0 : 0 <= IZR n) by (apply IZR_le; lia).
  rewrite Ztrunc_floor by lra. rewrite (Zfloor_imp n). { unfold u64_max. lia. } rewrite plus_IZR. lra.
Qed.
Lemma to_usize_Z z : (0 <= z <= 2 ^ 24)%Z -> to_usize (of_Z z : f32) = z.
Proof.
  intro H. destruct (of_Z32 z ltac:(lia)) as [F V]. apply to_usize_fin; [exact F|lia|]. rewrite V. lra.
Qed.

(** ** when does ind + 1 round up to the next-but-one integer? *)
Lemma fexp32_k k : (-125 <= k)%Z -> SpecFloat.fexp 24 128 k = (k - 24)%Z.
Proof. intro H. unfold SpecFloat.fexp, SpecFloat.emin. lia. Qed.

Lemma mag_bounds k x : bpow radix2 k <= x < bpow radix2 (k + 1) -> mag radix2 x = (k + 1)%Z :> Z.
Proof.
  intro H. apply mag_unique_pos. replace (k + 1 - 1)%Z with k by ring. exact H.
Qed.

Lemma scaled_fmt n k : (Z.abs n < 2 ^ 24)%Z -> (-149 <= k)%Z -> fmt32 (IZR n * bpow radix2 k).
Proof. intros. apply fmt_FLT; [assumption|unfold SpecFloat.emin; lia]. Qed.

Lemma pow2_between N : (1 <= N)%Z -> exists k, (0 <= k)%Z /\ (2 ^ k <= N < 2 ^ (k + 1))%Z.
Proof.
  intro H. exists (Z.log2 N). split; [apply Z.log2_nonneg|].
  destruct (Z.log2_spec N ltac:(lia)) as [A B]. rewrite Z.add_1_r. auto.
Qed.

Lemma rnd_up_next (x : R) N : fmt32 x -> (1 <= N < 2 ^ 24)%Z -> x < IZR N -> IZR (N + 1) <= rnd32 (x + 1) ->
  exists k, (0 <= k <= 22)%Z /\ N = (2 ^ k)%Z /\ x = bpow radix2 k - bpow radix2 (k - 24).
Proof.
  intros Fx HN Hlt Hr.
  destruct (pow2_between N ltac:(lia)) as (k & K0 & K1 & K2).
  assert (K23 : (k <= 23)%Z).
  { destruct (Z.le_gt_cases k 23) as [?|T]; [assumption|exfalso].
    assert (2 ^ 24 <= 2 ^ k)%Z by (apply Z.pow_le_mono_r; lia). lia. }
  assert (P : (2 ^ k * 2 ^ (23 - k) = 2 ^ 23)%Z) by (rewrite <- Z.pow_add_r by lia; f_equal; lia).
  assert (Pk : (0 < 2 ^ k)%Z) by (apply Z.pow_pos_nonneg; lia).
  assert (Pj : (0 < 2 ^ (23 - k))%Z) by (apply Z.pow_pos_nonneg; lia).
  assert (P2 : (2 ^ (k + 1) = 2 * 2 ^ k)%Z) by (rewrite Z.pow_add_r by lia; ring).
  assert (EB : IZR (2 ^ (23 - k)) * bpow radix2 (k - 23) = 1).
  { rewrite IZR_pow2 by lia. rewrite <- bpow_plus. replace (23 - k + (k - 23))%Z with 0%Z by ring. reflexivity. }
  (* the largest candidate below N+1 that is representable *)
  assert (FY : fmt32 (IZR (N + 1) - bpow radix2 (k - 23))).
  { replace (IZR (N + 1) - bpow radix2 (k - 23)) with (IZR ((N + 1) * 2 ^ (23 - k) - 1) * bpow radix2 (k - 23)).
    - apply scaled_fmt; [|lia]. rewrite Z.abs_eq by nia.
      assert ((N + 1) * 2 ^ (23 - k) <= 2 ^ (k + 1) * 2 ^ (23 - k))%Z by nia.
      rewrite P2 in H. change (2 ^ 24)%Z with (2 * 2 ^ 23)%Z. rewrite <- P. lia.
    - rewrite minus_IZR, mult_IZR. rewrite Rmult_minus_distr_r, Rmult_assoc, EB. ring. }
  assert (NL : x + 1 <= IZR (N + 1) - bpow radix2 (k - 23) -> False).
  { intro T. pose proof (rnd_le_fmt (prec:=24) (emax:=128) _ _ FY T) as T'. pose proof (bpow_gt_0 radix2 (k - 23)). lra. }
  rewrite plus_IZR in NL, Hr.
  assert (FN : fmt32 (IZR N)) by (apply fmt32_Z; lia).
  pose proof (pred_ge_gt radix2 (SpecFloat.fexp 24 128) x (IZR N) Fx FN Hlt) as PX.
  assert (PosN : 0 < IZR N) by (apply IZR_lt; lia).
  assert (BN : bpow radix2 k <= IZR N < bpow radix2 (k + 1)).
  { rewrite <- !IZR_pow2 by lia. split; [apply IZR_le|apply IZR_lt]; lia. }
  assert (MN : mag radix2 (IZR N) = (k + 1)%Z :> Z) by (apply mag_bounds, BN).
  rewrite pred_eq_pos in PX by lra. unfold pred_pos in PX. rewrite MN in PX.
  replace (k + 1 - 1)%Z with k in PX by ring.
  destruct (Req_bool_spec (IZR N) (bpow radix2 k)) as [E|E].
  2:{ exfalso. rewrite ulp_neq_0 in PX by lra. unfold cexp in PX. rewrite MN, fexp32_k in PX by lia.
      replace (k + 1 - 24)%Z with (k - 23)%Z in PX by ring. lra. }
  rewrite fexp32_k in PX by lia.
  assert (EN : N = (2 ^ k)%Z) by (apply eq_IZR; rewrite E, IZR_pow2 by lia; reflexivity).
  rewrite E in *.
  set (p := bpow radix2 k - bpow radix2 (k - 24)) in *.
  assert (D23 : bpow radix2 (k - 23) = 2 * bpow radix2 (k - 24)).
  { replace (k - 23)%Z with (k - 24 + 1)%Z by ring. apply bpow_double. }
  pose proof (bpow_gt_0 radix2 (k - 24)) as P24.
  assert (K1' : bpow radix2 k = 2 * bpow radix2 (k - 1)).
  { rewrite <- bpow_double. f_equal. ring. }
  assert (Small : bpow radix2 (k - 24) < bpow radix2 (k - 1)) by (apply bpow_lt; lia).
  assert (Fp : fmt32 p).
  { unfold p. replace (bpow radix2 k) with (IZR (2 ^ 24) * bpow radix2 (k - 24)).
    - replace (IZR (2 ^ 24) * bpow radix2 (k - 24) - bpow radix2 (k - 24)) with (IZR (2 ^ 24 - 1) * bpow radix2 (k - 24)).
      + apply scaled_fmt; lia.
      + rewrite minus_IZR. ring.
    - rewrite IZR_pow2 by lia. rewrite <- bpow_plus. f_equal. ring. }
  assert (Ex : x = p).
  { destruct PX as [PX|PX]; [exfalso|exact PX].
    pose proof (pred_ge_gt radix2 (SpecFloat.fexp 24 128) x p Fx Fp PX) as PX2.
    assert (Pp : 0 < p) by (unfold p; lra).
    assert (Mp : mag radix2 p = k :> Z).
    { replace k with (k - 1 + 1)%Z by ring. apply mag_bounds. replace (k - 1 + 1)%Z with k by ring. unfold p. lra. }
    rewrite pred_eq_pos in PX2 by lra. unfold pred_pos in PX2. rewrite Mp in PX2.
    destruct (Req_bool_spec p (bpow radix2 (k - 1))) as [E2|E2]; [unfold p in E2; lra|].
    rewrite ulp_neq_0 in PX2 by lra. unfold cexp in PX2. rewrite Mp, fexp32_k in PX2 by lia.
    apply NL. unfold p in PX2. lra. }
  exists k. split; [|split; [exact EN|exact Ex]].
  split; [exact K0|]. destruct (Z.eq_dec k 23) as [K|]; [exfalso|lia]. subst k.
  assert (T : rnd32 (x + 1) < 8388609).
  { apply Rle_lt_trans with (8388608 + 1 / 2 + 1 / 4 + 1 / 8); [|lra].
    replace (x + 1) with (8388608 + / 2).
    2:{ rewrite Ex. unfold p. change (bpow radix2 23) with 8388608. change (bpow radix2 (23 - 24)) with (/ 2). lra. }
    assert (Em : mag radix2 (8388608 + / 2) = 24%Z :> Z).
    { apply (mag_bounds 23). change (bpow radix2 23) with 8388608. change (bpow radix2 (23 + 1)) with 16777216. lra. }
    unfold round, scaled_mantissa, cexp. rewrite Em. change (SpecFloat.fexp 24 128 24) with 0%Z.
    simpl (- 0)%Z. change (bpow radix2 0) with 1. rewrite Rmult_1_r. unfold F2R. simpl Fnum. simpl Fexp.
    change (bpow radix2 0) with 1. rewrite Rmult_1_r.
    assert (FF : Zfloor (8388608 + / 2) = 8388608%Z).
    { apply Zfloor_imp. rewrite plus_IZR. lra. }
    unfold Znearest. rewrite FF. rewrite Rcompare_Eq by lra. change (negb (Z.even 8388608)) with false. cbn iota. lra. }
  change (bpow radix2 23) with 8388608 in Hr. lra.
Qed.

(** ... and in those cases it does *)
Lemma rnd_up_conv k : (0 <= k <= 22)%Z ->
  rnd32 (bpow radix2 k - bpow radix2 (k - 24) + 1) = IZR (2 ^ k + 1).
Proof.
  intro Hk.
  set (x := bpow radix2 k - bpow radix2 (k - 24) + 1).
  assert (L : (0 <= 22 - k)%Z) by lia.
  assert (Pk : (0 < 2 ^ k)%Z) by (apply Z.pow_pos_nonneg; lia).
  assert (Pj : (0 < 2 ^ (22 - k))%Z) by (apply Z.pow_pos_nonneg; lia).
  assert (B1 : 1 <= bpow radix2 k) by (change 1 with (bpow radix2 0); apply bpow_le; lia).
  assert (B2 : bpow radix2 (k - 24) <= / 4).
  { change (/ 4) with (bpow radix2 (-2)). apply bpow_le. lia. }
  pose proof (bpow_gt_0 radix2 (k - 24)) as P24.
  assert (Mx : mag radix2 x = (k + 1)%Z :> Z).
  { apply mag_bounds. rewrite bpow_double. unfold x. split; [lra|].
    destruct (Z.eq_dec k 0) as [->|Nk]; [change (bpow radix2 0) with 1 in *; lra|].
    assert (2 <= bpow radix2 k) by (change 2 with (bpow radix2 1); apply bpow_le; lia). lra. }
  unfold round, scaled_mantissa, cexp. rewrite Mx, fexp32_k by lia.
  set (M := ((2 ^ k + 1) * (2 * 2 ^ (22 - k)))%Z).
  assert (EM : IZR M * bpow radix2 (k + 1 - 24) = IZR (2 ^ k + 1)).
  { unfold M. rewrite mult_IZR.
    replace (2 * 2 ^ (22 - k))%Z with (2 ^ (23 - k))%Z
      by (replace (23 - k)%Z with (1 + (22 - k))%Z by ring; rewrite Z.pow_add_r by lia; ring).
    rewrite (IZR_pow2 (23 - k)) by lia. rewrite Rmult_assoc, <- bpow_plus.
    replace (23 - k + (k + 1 - 24))%Z with 0%Z by ring. simpl. ring. }
  assert (SM : x * bpow radix2 (- (k + 1 - 24)) = IZR (M - 1) + / 2).
  { apply Rmult_eq_reg_r with (bpow radix2 (k + 1 - 24)); [|pose proof (bpow_gt_0 radix2 (k + 1 - 24)); lra].
    rewrite Rmult_assoc, <- bpow_plus. replace (- (k + 1 - 24) + (k + 1 - 24))%Z with 0%Z by ring.
    change (bpow radix2 0) with 1. rewrite Rmult_1_r, Rmult_plus_distr_r, minus_IZR, Rmult_minus_distr_r, EM.
    replace (bpow radix2 (k + 1 - 24)) with (2 * bpow radix2 (k - 24)).
    2:{ rewrite <- bpow_double. f_equal. ring. }
    rewrite plus_IZR, IZR_pow2 by lia. unfold x. field. }
  rewrite SM.
  assert (FF : Zfloor (IZR (M - 1) + / 2) = (M - 1)%Z).
  { apply Zfloor_imp. rewrite plus_IZR. lra. }
  assert (CC : Zceil (IZR (M - 1) + / 2) = M).
  { apply Zceil_imp. rewrite minus_IZR. lra. }
  unfold Znearest. rewrite FF, CC. rewrite Rcompare_Eq by lra.
  assert (OD : negb (Z.even (M - 1)) = true).
  { unfold M. replace ((2 ^ k + 1) * (2 * 2 ^ (22 - k)) - 1)%Z with (2 * ((2 ^ k + 1) * 2 ^ (22 - k) - 1) + 1)%Z by ring.
    rewrite Z.even_add_mul_2 || rewrite Z.add_comm, Z.even_add_mul_2. reflexivity. }
  rewrite OD. unfold F2R. simpl Fnum. simpl Fexp. exact EM.
Qed.

(** ** exactly when does the index of the right-hand neighbour leave the track *)
Lemma next_index_iff (ind : f32) len : (len <= 2 ^ 24)%Z ->
  ((to_usize ind + 1 < len)%Z /\ (len <= to_usize (fadd ind (of_Z 1)))%Z <->
   exists k, (0 <= k <= 22)%Z /\ len = (2 ^ k + 1)%Z /\
     is_finite ind = true /\ B2R ind = bpow radix2 k - bpow radix2 (k - 24)).
Proof.
  intros Hlen. pose proof (to_usize_nonneg ind) as U. set (i := to_usize ind) in *.
  destruct (of_Z32 1 ltac:(lia)) as [F1 V1].
  split.
  - intros [A B]. destruct (is_finite ind) eqn:F.
    2:{ exfalso. unfold i in *. destruct ind as [?|[]| |? ? ? ?]; try discriminate F.
        - assert (to_usize (fadd (B754_infinity true : f32) (of_Z 1)) = 0%Z) as Q by reflexivity. rewrite Q in B. lia.
        - assert (to_usize (B754_infinity false : f32) = u64_max) as Q by reflexivity. rewrite Q in A. unfold u64_max in A. lia.
        - assert (to_usize (fadd (B754_nan : f32) (of_Z 1)) = 0%Z) as Q by reflexivity. rewrite Q in B. lia. }
    set (x := B2R ind) in *.
    assert (Hx : x < IZR (len - 1)).
    { apply Rlt_le_trans with (IZR (i + 1)); [|apply IZR_le; lia].
      unfold i, to_usize. rewrite (to_int_fin _ _ _ F). fold x.
      destruct (Rle_lt_dec 0 x) as [P|P].
      - rewrite Ztrunc_floor by exact P. assert (0 <= Zfloor x)%Z by (apply Zfloor_lub; exact P).
        assert (Zfloor x <= u64_max)%Z.
        { destruct (Z.le_gt_cases (Zfloor x) u64_max) as [?|T]; [assumption|exfalso].
          unfold i, to_usize in A. rewrite (to_int_fin _ _ _ F) in A. fold x in A. rewrite Ztrunc_floor in A by exact P.
          unfold u64_max in *. lia. }
        replace (Z.max 0 (Z.min u64_max (Zfloor x)) + 1)%Z with (Zfloor x + 1)%Z by lia.
        rewrite plus_IZR. apply Zfloor_ub.
      - apply Rlt_le_trans with 1; [lra|]. apply (IZR_le 1). lia. }
    assert (Fin2 : fin (fadd ind (of_Z 1)) /\ B2R (fadd ind (of_Z 1)) = rnd32 (x + 1)).
    { destruct (Rle_lt_dec x (-1)) as [Q|Q].
      - destruct (fadd_le ind (of_Z 1) (Rabs x) F F1) as (Q1 & Q2 & _).
        + unfold x. apply generic_format_abs, fmt_B2R.
        + apply abs_B2R_lt.
        + rewrite V1. fold x. rewrite !Rabs_left1 by lra. lra.
        + rewrite V1 in Q2. fold x in Q2. auto.
      - destruct (fadd_le ind (of_Z 1) (IZR (2 ^ 24)) F F1) as (Q1 & Q2 & _).
        + apply fmt32_Z. lia.
        + rewrite IZR_pow2 by lia. apply bpow_lt. lia.
        + rewrite V1. fold x. assert (IZR (len - 1) <= IZR (2 ^ 24 - 1)) by (apply IZR_le; lia).
          rewrite Rabs_pos_eq by lra. change (2 ^ 24 - 1)%Z with 16777215%Z in H. change (2 ^ 24)%Z with 16777216%Z. lra.
        + rewrite V1 in Q2. fold x in Q2. auto. }
    destruct Fin2 as [F2 V2].
    assert (R : IZR len <= rnd32 (x + 1)).
    { apply Rle_trans with (IZR (to_usize (fadd ind (of_Z 1)))); [apply IZR_le, B|].
      unfold to_usize. rewrite (to_int_fin _ _ _ F2), V2.
      destruct (Rle_lt_dec 0 (rnd32 (x + 1))) as [P|P].
      - rewrite Ztrunc_floor by exact P. assert (0 <= Zfloor (rnd32 (x + 1)))%Z by (apply Zfloor_lub; exact P).
        apply Rle_trans with (IZR (Zfloor (rnd32 (x + 1)))); [apply IZR_le; lia|apply Zfloor_lb].
      - exfalso. unfold to_usize in B. rewrite (to_int_fin _ _ _ F2), V2, Ztrunc_ceil in B by lra.
        assert (Zceil (rnd32 (x + 1)) <= 0)%Z by (apply Zceil_glb; simpl; lra). lia. }
    destruct (rnd_up_next x (len - 1)) as (k & K1 & K2 & K3).
    + apply fmt_B2R.
    + lia.
    + exact Hx.
    + replace (len - 1 + 1)%Z with len by ring. exact R.
    + exists k. split; [exact K1|]. split; [lia|]. split; [reflexivity|exact K3].
  - intros (k & K1 & K2 & F & V).
    assert (Pk : (0 < 2 ^ k)%Z) by (apply Z.pow_pos_nonneg; lia).
    assert (B1 : 1 <= bpow radix2 k) by (change 1 with (bpow radix2 0); apply bpow_le; lia).
    assert (B2 : bpow radix2 (k - 24) <= / 4) by (change (/ 4) with (bpow radix2 (-2)); apply bpow_le; lia).
    pose proof (bpow_gt_0 radix2 (k - 24)) as P24.
    assert (Ei : i = (2 ^ k - 1)%Z).
    { unfold i. apply to_usize_fin; [exact F|lia|]. rewrite V, minus_IZR, IZR_pow2 by lia. lra. }
    split; [lia|].
    destruct (fadd_ok ind (of_Z 1) F F1) as [Q1 Q2].
    { rewrite V, V1, rnd_up_conv by exact K1. rewrite <- abs_IZR.
      apply Rle_lt_trans with (IZR (2 ^ 24)); [apply IZR_le; lia|]. rewrite IZR_pow2 by lia. apply bpow_lt. lia. }
    rewrite V, V1, rnd_up_conv in Q2 by exact K1.
    rewrite (to_usize_fin _ (2 ^ k + 1) Q1); [lia|lia|]. rewrite Q2. lra.
Qed.


Lemma next_index_lt (ind : f32) len : (len <= 2 ^ 24)%Z -> (to_usize ind + 1 < len)%Z ->
  (forall k, (0 <= k <= 22)%Z -> len <> (2 ^ k + 1)%Z) ->
  (to_usize (fadd ind (of_Z 1)) < len)%Z.
Proof.
  intros H1 H2 H3. destruct (Z.lt_ge_cases (to_usize (fadd ind (of_Z 1))) len) as [?|T]; [assumption|exfalso].
  destruct (proj1 (next_index_iff ind len H1) (conj H2 T)) as (k & K1 & K2 & _). exact (H3 k K1 K2).
Qed.

(** ** non-looping playback: exactly when does process panic *)
Lemma process_nl_panic_iff (r : resampler) : r_le r = 0%Z -> (Z.of_nat (length (r_data r)) <= 2 ^ 24)%Z ->
  (resampler_process r = Panic <->
   exists k, (0 <= k <= 22)%Z /\ Z.of_nat (length (r_data r)) = (2 ^ k + 1)%Z /\
     is_finite (r_ind r) = true /\ B2R (r_ind r) = bpow radix2 k - bpow radix2 (k - 24)).
Proof.
  intros Hle Hlen. set (len := Z.of_nat (length (r_data r))) in *.
  pose proof (to_usize_nonneg (r_ind r)) as U. set (i := to_usize (r_ind r)) in *.
  rewrite <- (next_index_iff (r_ind r) len Hlen). fold i.
  unfold resampler_process. fold len. rewrite Hle, to_usize_trunc. cbn [Z.eqb negb]. rewrite andb_true_r.
    fold i. destruct (Z.leb_spec len i) as [A|A].
    - split; [discriminate|lia].
    - unfold usize_add. destruct (Z.leb_spec (i + 1) u64_max) as [B|B]; [|unfold u64_max in B; lia]. cbn [bind].
      rewrite andb_false_r. destruct (Z.leb_spec len (i + 1)) as [C|C].
      + rewrite (index_ok _ i mono_new) by lia. cbn [bind]. split; [discriminate|lia].
      + rewrite to_usize_trunc. pose proof (to_usize_nonneg (fadd (r_ind r) (of_Z 1))) as U2.
        destruct (Z.lt_ge_cases (to_usize (fadd (r_ind r) (of_Z 1))) len) as [D|D].
        * rewrite (index_ok _ (to_usize (fadd (r_ind r) (of_Z 1))) mono_new) by lia. cbn [bind].
          rewrite (index_ok _ i mono_new) by lia. cbn [bind]. split; [discriminate|lia].
        * rewrite (index_panic _ (to_usize (fadd (r_ind r) (of_Z 1)))) by exact D. cbn [bind]. tauto.
Qed.

Lemma process_preserves r y r' : resampler_process r = Ok (y, r') ->
  r_data r' = r_data r /\ r_inc r' = r_inc r /\ r_speed r' = r_speed r /\ r_ls r' = r_ls r /\ r_le r' = r_le r.
Proof.
  unfold resampler_process. destruct (_ && _).
  - intro E. injection E as _ <-. auto.
  - destruct (usize_add _ _); [|discriminate]. cbn [bind].
    match goal with |- bind ?e _ = _ -> _ => destruct e; [|discriminate] end. cbn [bind].
    destruct (index _ _); [|discriminate]. cbn [bind]. intro E. injection E as _ <-.
    unfold advance. cbn. auto.
Qed.

Lemma nl_never_panics ops : forall r : resampler, r_le r = 0%Z -> (Z.of_nat (length (r_data r)) <= 2 ^ 24)%Z ->
  (forall k, (0 <= k <= 22)%Z -> Z.of_nat (length (r_data r)) <> (2 ^ k + 1)%Z) ->
  rrun ops r <> Panic.
Proof.
  induction ops as [|[s|] ops IH]; intros r Hle Hlen Hk; [discriminate| |].
  - cbn [rrun]. apply IH; assumption.
  - cbn [rrun]. destruct (resampler_process r) as [[y r']|] eqn:E.
    + cbn [bind]. destruct (process_preserves r y r' E) as (A & _ & _ & _ & B).
      assert (N : rrun ops r' <> Panic) by (apply IH; rewrite ?A, ?B; assumption).
      destruct (rrun ops r') as [[ys r'']|]; [discriminate|congruence].
    + exfalso. apply process_nl_panic_iff in E; try assumption. destruct E as (k & K1 & K2 & _). exact (Hk k K1 K2).
Qed.
