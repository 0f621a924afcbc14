(** * Proofs about MonoResampler: output bound, loop invariant, loop seam *)

From Coq Require Import ZArith List Bool Reals Lra Lia Psatz.
From Flocq Require Import Core.Core IEEE754.BinarySingleNaN.
From Verif Require Import Model.Floats Model.Mono Model.Wav Model.Resampler
  Proof.FloatFacts Proof.SampleFormatP Proof.FormatsP Proof.WavP Proof.ResamplerP Proof.ResamplerP2.
Import ListNotations.
Local Open Scope R_scope.

(** ** C26 *)
(** a power of two absorbs a positive error of half its ulp *)
Lemma rnd_absorb e : (-125 <= e <= 126)%Z -> rnd32 (bpow radix2 e + bpow radix2 (e - 24)) = bpow radix2 e.
Proof.
  intro He. pose proof (bpow_gt_0 radix2 (e - 24)) as P. pose proof (bpow_gt_0 radix2 e) as P'.
  assert (L : bpow radix2 (e - 24) < bpow radix2 e) by (apply bpow_lt; lia).
  set (x := bpow radix2 e + bpow radix2 (e - 24)).
  assert (Mx : mag radix2 x = (e + 1)%Z :> Z) by (apply mag_bounds; rewrite bpow_double; unfold x; lra).
  unfold round, scaled_mantissa, cexp. rewrite Mx, fexp32_k by lia.
  assert (EM : IZR (2 ^ 23) * bpow radix2 (e + 1 - 24) = bpow radix2 e).
  { rewrite IZR_pow2 by lia. rewrite <- bpow_plus. f_equal. ring. }
  assert (SM : x * bpow radix2 (- (e + 1 - 24)) = IZR (2 ^ 23) + / 2).
  { apply Rmult_eq_reg_r with (bpow radix2 (e + 1 - 24)); [|pose proof (bpow_gt_0 radix2 (e + 1 - 24)); lra].
    rewrite Rmult_assoc, <- bpow_plus. replace (- (e + 1 - 24) + (e + 1 - 24))%Z with 0%Z by ring.
    change (bpow radix2 0) with 1. rewrite Rmult_1_r, Rmult_plus_distr_r, EM.
    replace (bpow radix2 (e + 1 - 24)) with (2 * bpow radix2 (e - 24)) by (rewrite <- bpow_double; f_equal; ring).
    unfold x. field. }
  rewrite SM. change (2 ^ 23)%Z with 8388608%Z in *.
  assert (FF : Zfloor (8388608 + / 2) = 8388608%Z) by (apply Zfloor_imp; rewrite plus_IZR; lra).
  unfold Znearest. rewrite FF, Rcompare_Eq by lra. change (negb (Z.even 8388608)) with false. cbn iota.
  unfold F2R. simpl Fnum. simpl Fexp. exact EM.
Qed.

(** interpolation in f32 never leaves the power-of-two range *)
Lemma mix_upper e x1 x2 d p y : (-125 <= e <= 126)%Z -> fmt32 x1 ->
  - bpow radix2 e <= x1 <= bpow radix2 e -> x2 <= bpow radix2 e ->
  d = rnd32 (x2 - x1) -> p <= Rmax 0 d -> y = rnd32 (x1 + p) -> y <= bpow radix2 e.
Proof.
  intros He F1 H1 H2 -> Hp ->. pose proof (bpow_gt_0 radix2 e) as P.
  assert (Fe : fmt32 (bpow radix2 e)) by (apply fmt32_b; lia).
  assert (Q : x1 + p <= bpow radix2 e \/ x1 + p <= bpow radix2 e + bpow radix2 (e - 24)).
  { unfold Rmax in Hp. destruct (Rle_dec 0 (rnd32 (x2 - x1))).
    - right. assert (D : rnd32 (x2 - x1) <= rnd32 (bpow radix2 e - x1)) by (apply rnd_le; lra).
      assert (E : Rabs (rnd32 (bpow radix2 e - x1) - (bpow radix2 e - x1)) <= bpow radix2 (e + 1 - 24 - 1)).
      { apply rnd_err; [unfold SpecFloat.emin; lia|]. rewrite bpow_double. rewrite Rabs_pos_eq by lra. lra. }
      replace (e + 1 - 24 - 1)%Z with (e - 24)%Z in E by ring.
      apply Rabs_le_inv in E. lra.
    - left. lra. }
  destruct Q as [Q|Q].
  - apply (rnd_le_fmt (prec:=24) (emax:=128)); assumption.
  - rewrite <- (rnd_absorb e He). apply rnd_le. exact Q.
Qed.

Lemma mix_bound e (fr x1 x2 : f32) : (-125 <= e <= 126)%Z -> fin fr -> fin x1 -> fin x2 ->
  0 <= B2R fr <= 1 -> Rabs (B2R x1) <= bpow radix2 e -> Rabs (B2R x2) <= bpow radix2 e ->
  fin (mix fr x1 x2) /\ Rabs (B2R (mix fr x1 x2)) <= bpow radix2 e.
Proof.
  intros He Ff F1 F2 Hf H1 H2. unfold mix.
  pose proof (bpow_gt_0 radix2 e) as P.
  assert (D : Rabs (B2R x2 - B2R x1) <= bpow radix2 (e + 1)).
  { rewrite bpow_double. eapply Rle_trans; [apply Rabs_triang|]. rewrite Rabs_Ropp. lra. }
  destruct (fsub_le x2 x1 (bpow radix2 (e + 1)) F2 F1) as (A & B & C); [apply fmt32_b; lia|apply bpow_lt; lia|exact D|].
  set (d := B2R (fsub x2 x1)) in *.
  assert (PB : Rabs (B2R fr * d) <= Rabs d).
  { rewrite Rabs_mult, (Rabs_pos_eq (B2R fr)) by lra. pose proof (Rabs_pos d). nra. }
  destruct (fmul_le fr (fsub x2 x1) (Rabs d) Ff A) as (M1 & M2 & M3);
    [apply generic_format_abs, fmt_B2R|apply abs_B2R_lt|exact PB|].
  set (p := B2R (fmul fr (fsub x2 x1))) in *.
  assert (Pu : p <= Rmax 0 d).
  { destruct (Rle_lt_dec 0 d) as [Q|Q].
    - rewrite Rmax_right by exact Q. apply Rabs_le_inv in M3. rewrite (Rabs_pos_eq d Q) in M3. lra.
    - rewrite Rmax_left by lra. rewrite M2. apply rnd_nonpos. fold d. nra. }
  assert (Pl : - p <= Rmax 0 (- d)).
  { destruct (Rle_lt_dec d 0) as [Q|Q].
    - rewrite Rmax_right by lra. apply Rabs_le_inv in M3. rewrite (Rabs_left1 d Q) in M3. lra.
    - rewrite Rmax_left by lra. assert (0 <= p); [|lra]. rewrite M2. apply rnd_nonneg. fold d. nra. }
  apply Rabs_le_inv in H1. apply Rabs_le_inv in H2.
  assert (Up : rnd32 (B2R x1 + p) <= bpow radix2 e).
  { eapply (mix_upper e (B2R x1) (B2R x2) d p); try eassumption; try reflexivity; try lra. apply fmt_B2R. }
  assert (Lo : - rnd32 (B2R x1 + p) <= bpow radix2 e).
  { eapply (mix_upper e (- B2R x1) (- B2R x2) (- d) (- p)); try eassumption; try lra.
    - apply fmt_opp, fmt_B2R.
    - rewrite B. rewrite <- (rnd_opp (prec:=24) (emax:=128)). f_equal. ring.
    - rewrite <- (rnd_opp (prec:=24) (emax:=128)). f_equal. ring. }
  assert (Ab : Rabs (rnd32 (B2R x1 + p)) <= bpow radix2 e) by (apply Rabs_le; lra).
  destruct (fadd_ok x1 (fmul fr (fsub x2 x1)) F1 M1) as [R1 R2].
  { fold p. eapply Rle_lt_trans; [exact Ab|]. apply bpow_lt. lia. }
  split; [exact R1|]. rewrite R2. fold p. exact Ab.
Qed.

Lemma ffract_range (x : f32) : fin x -> 0 <= B2R x -> fin (ffract x) /\ 0 <= B2R (ffract x) <= 1.
Proof.
  intros F H. unfold ffract. destruct (ftrunc_ok x F) as [A B].
  rewrite Ztrunc_floor in B by exact H.
  pose proof (Zfloor_lb (B2R x)) as L. pose proof (Zfloor_ub (B2R x)) as Ub.
  destruct (fsub_le x (ftrunc x) 1 F A) as (C & D & E).
  - change 1 with (bpow radix2 0). apply fmt32_b; lia.
  - change 1 with (bpow radix2 0). apply bpow_lt. lia.
  - rewrite B, Rabs_pos_eq; lra.
  - split; [exact C|]. apply Rabs_le_inv in E. split; [|lra]. rewrite D, B. apply rnd_nonneg. lra.
Qed.

Lemma process_bound e r y r' : (-125 <= e <= 126)%Z -> within e (r_data r) ->
  is_finite (r_ind r) = true -> 0 <= B2R (r_ind r) -> resampler_process r = Ok (y, r') ->
  is_finite y = true /\ Rabs (B2R y) <= bpow radix2 e.
Proof.
  intros He W F H E. destruct (process_inv _ _ _ E) as [(-> & _)|(j & _ & _ & -> & _)].
  - split; [reflexivity|]. simpl. rewrite Rabs_R0. apply bpow_ge_0.
  - destruct (ffract_range _ F H) as [A B].
    destruct (within_at e (r_data r) (Z.to_nat (to_usize (r_ind r))) W) as [A1 A2].
    destruct (within_at e (r_data r) (Z.to_nat j) W) as [B1 B2].
    exact (mix_bound e _ _ _ He A A1 B1 B A2 B2).
Qed.

(** non-negative positions (possibly +infinity) *)
Definition nonneg_pos (x : f32) : Prop := x = B754_infinity false \/ (fin x /\ 0 <= B2R x).

Lemma ext_nonneg_pos (x : f32) : is_nan x = false -> 0 <= ext x -> nonneg_pos x.
Proof.
  intros N H. destruct (is_finite x) eqn:F.
  - right. rewrite ext_fin in H by exact F. auto.
  - left. destruct x as [|[]| |]; try discriminate; try reflexivity.
    unfold ext in H. pose proof (bpow_gt_0 radix2 128). lra.
Qed.
Lemma sat_nonneg x : 0 <= x -> 0 <= sat (emax := 128) x.
Proof.
  intro H. unfold sat. pose proof (bpow_gt_0 radix2 128). eapply Rle_trans; [|apply Rmax_r].
  apply Rmin_glb; lra.
Qed.
Lemma nonneg_fadd x y : nonneg_pos x -> nonneg_pos y -> nonneg_pos (fadd x y).
Proof.
  intros [->|[F H]] [->|[G K]]; try (left; reflexivity).
  - left. destruct y; try discriminate; reflexivity.
  - left. destruct x; try discriminate; reflexivity.
  - destruct (fadd_ext_fin x y F G) as [A B]. apply ext_nonneg_pos; [exact A|]. rewrite B.
    apply sat_nonneg, rnd_nonneg. lra.
Qed.
Lemma nonneg_fmul x y : fin x -> 0 <= B2R x -> fin y -> 0 <= B2R y -> nonneg_pos (fmul x y).
Proof.
  intros F H G K. destruct (fmul_ext_fin x y F G) as [A B]. apply ext_nonneg_pos; [exact A|]. rewrite B.
  apply sat_nonneg, rnd_nonneg. apply Rmult_le_pos; assumption.
Qed.

(** large integers convert to f32 with one rounding *)
Lemma of_Z_big z : (0 <= z <= u64_max)%Z -> fin (of_Z z : f32) /\ B2R (of_Z z : f32) = rnd32 (IZR z).
Proof.
  intro H. unfold of_Z. pose proof (binary_normalize_correct 24 128 _ _ mode_NE z 0 false) as C.
  cbv zeta in C. simpl round_mode in C.
  assert (E : F2R (Float radix2 z 0) = IZR z) by (unfold F2R; simpl; ring). rewrite E in C.
  rewrite Rlt_bool_true in C; [tauto|].
  apply Rle_lt_trans with (bpow radix2 64).
  - apply rnd_abs_le; [apply fmt32_b; lia|]. rewrite <- abs_IZR, <- IZR_pow2 by lia. apply IZR_le. unfold u64_max in H. lia.
  - apply bpow_lt. lia.
Qed.

Lemma advance_nonneg r : (0 <= r_ls r <= r_le r)%Z -> (r_le r <= u64_max)%Z ->
  nonneg_pos (r_ind r) -> is_finite (r_inc r) = true -> 0 <= B2R (r_inc r) ->
  is_finite (to32 (r_speed r)) = true -> 0 <= B2R (to32 (r_speed r)) -> nonneg_pos (r_ind (advance r)).
Proof.
  intros L1 L2 HI F1 P1 F2 P2. unfold advance. cbn [r_ind].
  assert (N : nonneg_pos (fadd (r_ind r) (fmul (r_inc r) (to32 (r_speed r))))).
  { apply nonneg_fadd; [exact HI|]. apply nonneg_fmul; assumption. }
  destruct (fge _ _ && _) eqn:Q; [|exact N].
  apply andb_prop in Q. destruct Q as [Q _].
  set (x := fadd (r_ind r) (fmul (r_inc r) (to32 (r_speed r)))) in *.
  destruct (of_Z_big (r_le r) ltac:(lia)) as [Fe Ve]. destruct (of_Z_big (r_le r - r_ls r) ltac:(lia)) as [Fd Vd].
  destruct N as [->|[F H]].
  - left. destruct (of_Z (r_le r - r_ls r) : f32); try discriminate; reflexivity.
  - apply fge_true in Q; try assumption.
    assert (LE : rnd32 (IZR (r_le r - r_ls r)) <= rnd32 (IZR (r_le r))) by (apply rnd_le, IZR_le; lia).
    assert (P0 : 0 <= rnd32 (IZR (r_le r - r_ls r))) by (apply rnd_nonneg, (IZR_le 0); lia).
    rewrite Ve in Q.
    destruct (fsub_le x (of_Z (r_le r - r_ls r)) (B2R x) F Fd) as (A & B & _).
    + apply fmt_B2R.
    + eapply Rle_lt_trans; [apply Rle_abs|apply abs_B2R_lt].
    + rewrite Vd. rewrite Rabs_pos_eq by lra. lra.
    + right. split; [exact A|]. rewrite B, Vd. apply rnd_nonneg. lra.
Qed.

(** a history whose speeds are non-negative finite f32 numbers *)
Definition good_speeds (ops : list rop) : Prop :=
  Forall (fun o => match o with RSpeed s => is_finite (to32 s) = true /\ 0 <= B2R (to32 s) | RProcess => True end) ops.

Lemma run_bound e ops : (-125 <= e <= 126)%Z -> good_speeds ops -> forall r ys r',
  within e (r_data r) -> (0 <= r_ls r <= r_le r)%Z -> (r_le r <= u64_max)%Z -> nonneg_pos (r_ind r) ->
  is_finite (r_inc r) = true -> 0 <= B2R (r_inc r) -> is_finite (to32 (r_speed r)) = true -> 0 <= B2R (to32 (r_speed r)) ->
  (Z.of_nat (length (r_data r)) <= u64_max)%Z ->
  rrun ops r = Ok (ys, r') -> Forall (fun y => is_finite y = true /\ Rabs (B2R y) <= bpow radix2 e) ys.
Proof.
  intros He G. induction G as [|o ops Ho G IH]; intros r ys r' W L1 L2 HI F1 P1 F2 P2 L3 E.
  - injection E as <- _. constructor.
  - destruct o as [s|]; cbn [rrun] in E.
    + destruct Ho as [Hs1 Hs2].
      apply (IH (set_playback_speed r s) ys r'); try assumption.
    + destruct (resampler_process r) as [[y r1]|] eqn:E1; [|discriminate]. cbn [bind] in E.
      destruct (rrun ops r1) as [[zs r2]|] eqn:E2; [|discriminate]. cbn [bind] in E. injection E as <- <-.
      destruct (process_preserves _ _ _ E1) as (D1 & D2 & D3 & D4 & D5).
      assert (B : is_finite y = true /\ Rabs (B2R y) <= bpow radix2 e).
      { destruct HI as [HI|[HI1 HI2]].
        - destruct (process_inv _ _ _ E1) as [(-> & _)|(j & T & _)].
          + split; [reflexivity|]. simpl. rewrite Rabs_R0. apply bpow_ge_0.
          + exfalso. rewrite HI in T. change (to_usize (B754_infinity false : f32)) with u64_max in T. lia.
        - exact (process_bound e r y r1 He W HI1 HI2 E1). }
      constructor; [exact B|].
      apply (IH r1 zs r2); rewrite ?D1, ?D2, ?D3, ?D4, ?D5; try assumption.
      destruct (process_inv _ _ _ E1) as [(_ & -> & _)|(j & _ & _ & _ & ->)]; [exact HI|].
      apply advance_nonneg; assumption.
Qed.

(** ** C27 *)
Lemma process_loop_panic_iff (r : resampler) : let len := Z.of_nat (length (r_data r)) in
  (0 <= r_ls r < r_le r)%Z -> (r_le r <= len)%Z -> (len <= 2 ^ 23)%Z ->
  is_finite (r_ind r) = true -> 0 <= B2R (r_ind r) < IZR (r_le r) ->
  (resampler_process r = Panic <->
   exists k, (0 <= k <= 22)%Z /\ len = (2 ^ k + 1)%Z /\
     is_finite (r_ind r) = true /\ B2R (r_ind r) = bpow radix2 k - bpow radix2 (k - 24)).
Proof.
  intros len H1 H2 H3 F H. rewrite <- (next_index_iff (r_ind r) len ltac:(lia)).
  assert (Zi : (0 <= Zfloor (B2R (r_ind r)) < r_le r)%Z).
  { split; [apply Zfloor_lub; tauto|]. apply lt_IZR. eapply Rle_lt_trans; [apply Zfloor_lb|tauto]. }
  assert (Ei : to_usize (r_ind r) = Zfloor (B2R (r_ind r))).
  { apply to_usize_fin; [exact F|lia|]. split; [apply Zfloor_lb|]. apply Zfloor_ub. }
  unfold resampler_process. fold len. rewrite to_usize_trunc.
  destruct (Z.leb_spec len (to_usize (r_ind r))) as [A|A]; [lia|]. cbn [andb].
  unfold usize_add. destruct (Z.leb_spec (to_usize (r_ind r) + 1) u64_max) as [B|B]; [|unfold u64_max in B; lia]. cbn [bind].
  destruct (Z.eqb_spec (r_le r) 0) as [|_]; [lia|]. cbn [negb]. rewrite andb_true_r.
  destruct (Z.leb_spec len (to_usize (r_ind r) + 1)) as [C|C].
  - unfold usize_sub. destruct (Z.leb_spec (r_ls r) (r_le r)); [|lia]. cbn [bind].
    destruct (of_Z32 (r_le r - r_ls r) ltac:(lia)) as [Fd Vd].
    assert (Dp : 0 <= IZR (r_le r - r_ls r) <= IZR (r_le r)) by (split; [apply (IZR_le 0)|apply IZR_le]; lia).
    destruct (fsub_le (r_ind r) (of_Z (r_le r - r_ls r)) (IZR (r_le r)) F Fd) as (P & Q & _).
    { apply fmt32_Z. lia. } { apply Rle_lt_trans with (IZR (2 ^ 23)); [apply IZR_le; lia|]. rewrite IZR_pow2 by lia. apply bpow_lt. lia. }
    { rewrite Vd. apply Rabs_le. lra. }
    assert (L : (0 <= to_usize (fsub (r_ind r) (of_Z (r_le r - r_ls r))) < len)%Z).
    { pose proof (to_usize_nonneg (fsub (r_ind r) (of_Z (r_le r - r_ls r)))) as U0. split; [lia|].
      unfold to_usize. rewrite (to_int_fin _ _ _ P), Q, Vd.
      assert (UB : rnd32 (B2R (r_ind r) - IZR (r_le r - r_ls r)) <= B2R (r_ind r)).
      { apply (rnd_le_fmt (prec:=24) (emax:=128)); [apply fmt_B2R|lra]. }
      assert (T : (Ztrunc (rnd32 (B2R (r_ind r) - IZR (r_le r - r_ls r))) <= Zfloor (B2R (r_ind r)))%Z).
      { rewrite <- (Ztrunc_floor (B2R (r_ind r))) by tauto. apply Ztrunc_le, UB. }
      lia. }
    rewrite (index_ok _ _ mono_new) by exact L. cbn [bind].
    rewrite (index_ok _ (to_usize (r_ind r)) mono_new) by lia. cbn [bind]. split; [discriminate|lia].
  - rewrite to_usize_trunc. pose proof (to_usize_nonneg (fadd (r_ind r) (of_Z 1))) as U2.
    destruct (Z.lt_ge_cases (to_usize (fadd (r_ind r) (of_Z 1))) len) as [D|D].
    + rewrite (index_ok _ (to_usize (fadd (r_ind r) (of_Z 1))) mono_new) by lia. cbn [bind].
      rewrite (index_ok _ (to_usize (r_ind r)) mono_new) by lia. cbn [bind]. split; [discriminate|lia].
    + rewrite (index_panic _ (to_usize (fadd (r_ind r) (of_Z 1)))) by exact D. cbn [bind]. tauto.
Qed.

(** the per-call step *)
Definition step_of (inc : f32) (speed : f64) : f32 := fmul inc (to32 speed).
Definition good_step (inc : f32) (ls le : Z) (speed : f64) : Prop :=
  is_finite (step_of inc speed) = true /\ 0 <= B2R (step_of inc speed) <= IZR (le - ls - 1).

Lemma advance_loop (r : resampler) : (0 <= r_ls r < r_le r)%Z -> (r_le r <= 2 ^ 23)%Z ->
  is_finite (r_ind r) = true -> 0 <= B2R (r_ind r) < IZR (r_le r) -> good_step (r_inc r) (r_ls r) (r_le r) (r_speed r) ->
  is_finite (r_ind (advance r)) = true /\ 0 <= B2R (r_ind (advance r)) < IZR (r_le r).
Proof.
  intros H1 H2 F H [Fs Hs]. unfold step_of in *. unfold advance. cbn [r_ind].
  set (st := fmul (r_inc r) (to32 (r_speed r))) in *. set (ls := r_ls r) in *. set (le := r_le r) in *.
  assert (FM : fmt32 (IZR (le + (le - ls - 1)))) by (apply fmt32_Z; lia).
  assert (Bnd : B2R (r_ind r) + B2R st <= IZR (le + (le - ls - 1))) by (rewrite plus_IZR; lra).
  destruct (fadd_le (r_ind r) st (IZR (le + (le - ls - 1))) F Fs FM) as (A & B & _).
  { apply Rle_lt_trans with (IZR (2 ^ 24)); [apply IZR_le; lia|]. rewrite IZR_pow2 by lia. apply bpow_lt. lia. }
  { rewrite Rabs_pos_eq by lra. exact Bnd. }
  set (x := fadd (r_ind r) st) in *.
  assert (X0 : 0 <= B2R x) by (rewrite B; apply rnd_nonneg; lra).
  assert (X1 : B2R x <= IZR (le + (le - ls - 1))).
  { rewrite B. apply (rnd_le_fmt (prec:=24) (emax:=128)); assumption. }
  destruct (of_Z32 le ltac:(lia)) as [Fe Ve]. destruct (of_Z32 (le - ls) ltac:(lia)) as [Fd Vd].
  destruct (Z.eqb_spec le 0) as [|_]; [lia|]. cbn [negb]. rewrite andb_true_r.
  destruct (fge x (of_Z le)) eqn:G.
  - apply fge_true in G; try assumption. rewrite Ve in G.
    assert (Dp : IZR (le - ls) <= IZR le) by (apply IZR_le; lia).
    assert (Fm : fmt32 (IZR (le - 1))) by (apply fmt32_Z; lia).
    assert (Up : B2R x - IZR (le - ls) <= IZR (le - 1)).
    { replace (IZR (le - 1)) with (IZR (le + (le - ls - 1)) - IZR (le - ls)); [lra|]. rewrite <- minus_IZR. f_equal. ring. }
    destruct (fsub_le x (of_Z (le - ls)) (IZR (le - 1)) A Fd Fm) as (P & Q & _).
    { apply Rle_lt_trans with (IZR (2 ^ 24)); [apply IZR_le; lia|]. rewrite IZR_pow2 by lia. apply bpow_lt. lia. }
    { rewrite Vd. rewrite Rabs_pos_eq by lra. exact Up. }
    split; [exact P|]. rewrite Q, Vd. split; [apply rnd_nonneg; lra|].
    apply Rle_lt_trans with (IZR (le - 1)); [|apply IZR_lt; lia].
    apply (rnd_le_fmt (prec:=24) (emax:=128)); [exact Fm|exact Up].
  - apply fge_false in G; try assumption. rewrite Ve in G. split; [exact A|lra].
Qed.

Definition good_steps (inc : f32) (ls le : Z) (ops : list rop) : Prop :=
  Forall (fun o => match o with RSpeed s => good_step inc ls le s | RProcess => True end) ops.

Lemma loop_run ops : forall (r : resampler), let len := Z.of_nat (length (r_data r)) in
  (0 <= r_ls r < r_le r)%Z -> (r_le r <= len)%Z -> (len <= 2 ^ 23)%Z ->
  (forall k, (0 <= k <= 22)%Z -> len <> (2 ^ k + 1)%Z) ->
  is_finite (r_ind r) = true -> 0 <= B2R (r_ind r) < IZR (r_le r) -> good_step (r_inc r) (r_ls r) (r_le r) (r_speed r) ->
  good_steps (r_inc r) (r_ls r) (r_le r) ops ->
  exists ys r', rrun ops r = Ok (ys, r') /\ is_finite (r_ind r') = true /\ 0 <= B2R (r_ind r') < IZR (r_le r).
Proof.
  induction ops as [|[s|] ops IH]; intros r len H1 H2 H3 Hk F H G GS.
  - exists [], r. auto.
  - cbn [rrun]. inversion GS; subst. apply (IH (set_playback_speed r s)); assumption.
  - cbn [rrun]. inversion GS; subst.
    destruct (resampler_process r) as [[y r1]|] eqn:E1.
    2:{ exfalso. apply process_loop_panic_iff in E1; try assumption. destruct E1 as (k & K1 & K2 & _). exact (Hk k K1 K2). }
    cbn [bind]. destruct (process_preserves _ _ _ E1) as (D1 & D2 & D3 & D4 & D5).
    assert (Er : r1 = advance r).
    { destruct (process_inv _ _ _ E1) as [(_ & _ & _ & T)|(j & _ & _ & _ & T)]; [lia|exact T]. }
    destruct (advance_loop r H1 ltac:(lia) F H G) as [A B]. rewrite <- Er in A, B.
    destruct (IH r1) as (ys & r' & E2 & P); rewrite ?D1, ?D2, ?D3, ?D4, ?D5; try assumption.
    rewrite E2. rewrite D5 in P. exists (y :: ys), r'. split; [reflexivity|exact P].
Qed.

(** ** C78: the loop seam *)
(** subtracting an integer without growing is exact *)
Lemma fsub32_exact (x : f32) n : fin x -> 0 <= B2R x <= IZR (2 ^ 24) -> (0 <= n <= 2 ^ 24)%Z -> Rabs (B2R x - IZR n) <= B2R x ->
  fin (fsub x (of_Z n)) /\ B2R (fsub x (of_Z n)) = B2R x - IZR n.
Proof.
  intros F H Hn Hd. destruct (of_Z32 n ltac:(lia)) as [Fn Vn].
  assert (Fm : fmt32 (B2R x - IZR n)).
  { destruct (Req_dec (B2R x) 0) as [Z0|Z0].
    { rewrite Z0 in Hd. assert (B2R x - IZR n = 0).
      { rewrite Z0. destruct (Req_dec (0 - IZR n) 0) as [?|T]; [assumption|]. pose proof (Rabs_pos_lt _ T). lra. }
      rewrite H0. apply fmt_0. }
    pose proof (fmt_B2R x) as Fx. unfold generic_format in Fx. unfold scaled_mantissa in Fx.
    set (m := Ztrunc (B2R x * bpow radix2 (- cexp radix2 (SpecFloat.fexp 24 128) (B2R x)))) in Fx.
    set (ce := cexp radix2 (SpecFloat.fexp 24 128) (B2R x)) in *.
    assert (Cmin : (-149 <= ce)%Z) by (unfold ce, cexp, SpecFloat.fexp, SpecFloat.emin; lia).
    unfold F2R in Fx. simpl Fnum in Fx. simpl Fexp in Fx.
    assert (MB : (Z.abs m < 2 ^ 24)%Z).
    { apply lt_IZR. rewrite abs_IZR. rewrite (IZR_pow2 24) by lia.
      apply Rmult_lt_reg_r with (bpow radix2 ce); [apply bpow_gt_0|].
      rewrite <- (Rabs_pos_eq (bpow radix2 ce)) at 1 by apply bpow_ge_0. rewrite <- Rabs_mult, <- Fx, <- bpow_plus.
      eapply Rlt_le_trans; [apply (bpow_mag_gt radix2)|]. apply bpow_le. unfold ce, cexp, SpecFloat.fexp. lia. }
    destruct (Z.le_gt_cases ce 0) as [C|C].
    - assert (En : IZR n = IZR (n * 2 ^ (- ce)) * bpow radix2 ce).
      { rewrite mult_IZR, (IZR_pow2 (- ce)) by lia. rewrite Rmult_assoc, <- bpow_plus.
        replace (- ce + ce)%Z with 0%Z by ring. simpl. ring. }
      assert (Ed : B2R x - IZR n = IZR (m - n * 2 ^ (- ce)) * bpow radix2 ce).
      { rewrite minus_IZR, Rmult_minus_distr_r, <- En, <- Fx. reflexivity. }
      rewrite Ed. apply scaled_fmt; [|exact Cmin].
      apply Z.le_lt_trans with (Z.abs m); [|exact MB].
      apply le_IZR. rewrite !abs_IZR. apply Rmult_le_reg_r with (bpow radix2 ce); [apply bpow_gt_0|].
      rewrite <- (Rabs_pos_eq (bpow radix2 ce)) by apply bpow_ge_0. rewrite <- !Rabs_mult, <- Ed, <- Fx.
      rewrite (Rabs_pos_eq (B2R x)) by lra. exact Hd.
    - (* x is an integer *)
      assert (Ex : B2R x = IZR (m * 2 ^ ce)) by (rewrite Fx at 1; rewrite mult_IZR, (IZR_pow2 ce) by lia; reflexivity).
      rewrite Ex, <- minus_IZR. apply fmt32_Z.
      apply le_IZR. rewrite abs_IZR, minus_IZR, <- Ex. lra. }
  destruct (fsub_le x (of_Z n) (B2R x) F Fn) as (A & B & _).
  - apply fmt_B2R.
  - eapply Rle_lt_trans; [apply Rle_abs|apply abs_B2R_lt].
  - rewrite Vn. exact Hd.
  - split; [exact A|]. rewrite B, Vn. apply rnd_fmt, Fm.
Qed.

(** loop ending at the track end: the seam is interpolated towards the sample before the loop start *)
Lemma seam_at_end (r : resampler) : let len := Z.of_nat (length (r_data r)) in
  r_le r = len -> (1 <= r_ls r < len)%Z -> (len <= 2 ^ 24)%Z ->
  is_finite (r_ind r) = true -> IZR (len - 1) <= B2R (r_ind r) < IZR len ->
  resampler_process r = Ok (mix (ffract (r_ind r)) (sample_at (r_data r) (Z.to_nat (len - 1)))
    (sample_at (r_data r) (Z.to_nat (r_ls r - 1))), advance r).
Proof.
  intros len Hle Hls Hlen F H. rewrite minus_IZR in H.
  assert (Ei : to_usize (r_ind r) = (len - 1)%Z) by (apply to_usize_fin; [exact F|lia|rewrite minus_IZR; lra]).
  unfold resampler_process. fold len. rewrite to_usize_trunc, Ei.
  destruct (Z.leb_spec len (len - 1)); [lia|]. cbn [andb].
  unfold usize_add. replace (len - 1 + 1)%Z with len by ring.
  destruct (Z.leb_spec len u64_max) as [|T]; [|unfold u64_max in T; lia]. cbn [bind].
  rewrite Z.leb_refl. destruct (Z.eqb_spec (r_le r) 0); [lia|]. cbn [negb andb].
  unfold usize_sub. destruct (Z.leb_spec (r_ls r) (r_le r)); [|lia]. cbn [bind].
  assert (R1 : 1 <= IZR (r_ls r)) by (apply (IZR_le 1); lia).
  assert (R2 : IZR len <= IZR (2 ^ 24)) by (apply IZR_le; lia).
  assert (R3 : IZR (r_ls r) <= IZR len - 1) by (rewrite <- minus_IZR; apply IZR_le; lia).
  destruct (fsub32_exact (r_ind r) (r_le r - r_ls r) F) as [A B].
  - lra. - lia. - rewrite minus_IZR, Hle. rewrite Rabs_pos_eq by lra. lra.
  - assert (Ej : to_usize (fsub (r_ind r) (of_Z (r_le r - r_ls r))) = (r_ls r - 1)%Z).
    { apply to_usize_fin; [exact A|lia|]. rewrite B, !minus_IZR, Hle. lra. }
    rewrite Ej. rewrite (index_ok _ (r_ls r - 1) mono_new) by (fold len; lia). cbn [bind].
    rewrite (index_ok _ (len - 1) mono_new) by (fold len; lia). reflexivity.
Qed.

(** loop ending before the track end: the seam is interpolated towards the sample after the loop *)
Lemma seam_inside (r : resampler) : let len := Z.of_nat (length (r_data r)) in
  (0 <= r_ls r < r_le r)%Z -> (r_le r < len)%Z -> (len <= 2 ^ 23)%Z ->
  is_finite (r_ind r) = true -> IZR (r_le r - 1) <= B2R (r_ind r) -> B2R (fadd (r_ind r) (of_Z 1)) < IZR (r_le r + 1) ->
  B2R (r_ind r) < IZR (r_le r) ->
  resampler_process r = Ok (mix (ffract (r_ind r)) (sample_at (r_data r) (Z.to_nat (r_le r - 1)))
    (sample_at (r_data r) (Z.to_nat (r_le r))), advance r).
Proof.
  intros len H1 H2 H3 F Lo Hadd Hi. rewrite minus_IZR in Lo.
  assert (Ei : to_usize (r_ind r) = (r_le r - 1)%Z) by (apply to_usize_fin; [exact F|lia|rewrite minus_IZR; lra]).
  destruct (of_Z32 1 ltac:(lia)) as [F1 V1].
  assert (R1 : 1 <= IZR (r_le r)) by (apply (IZR_le 1); lia).
  assert (R2 : IZR (r_le r) <= IZR (2 ^ 23)) by (apply IZR_le; lia).
  destruct (fadd_le (r_ind r) (of_Z 1) (IZR (2 ^ 24)) F F1) as (A & B & _).
  { apply fmt32_Z. lia. } { rewrite IZR_pow2 by lia. apply bpow_lt. lia. }
  { rewrite V1, Rabs_pos_eq by lra. change (2 ^ 23)%Z with 8388608%Z in R2. change (2 ^ 24)%Z with 16777216%Z. lra. }
  rewrite V1 in B.
  assert (Ej : to_usize (fadd (r_ind r) (of_Z 1)) = r_le r).
  { apply to_usize_fin; [exact A|lia|]. rewrite plus_IZR in Hadd. split; [|exact Hadd].
    rewrite B. apply (rnd_ge_fmt (prec:=24) (emax:=128)); [apply fmt32_Z; lia|lra]. }
  unfold resampler_process. fold len. rewrite !to_usize_trunc, Ei, Ej.
  destruct (Z.leb_spec len (r_le r - 1)); [lia|]. cbn [andb].
  unfold usize_add. replace (r_le r - 1 + 1)%Z with (r_le r) by ring.
  destruct (Z.leb_spec (r_le r) u64_max) as [|T]; [|unfold u64_max in T; lia]. cbn [bind].
  destruct (Z.leb_spec len (r_le r)); [lia|]. cbn [andb].
  rewrite (index_ok _ (r_le r) mono_new) by (fold len; lia). cbn [bind].
  rewrite (index_ok _ (r_le r - 1) mono_new) by (fold len; lia). reflexivity.
Qed.
