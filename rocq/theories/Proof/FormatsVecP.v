(** * C11: vector conversions of Mono and Stereo; C08/C09 operator values *)

From Coq Require Import ZArith List Bool Reals Lra Lia.
From Flocq Require Import Core.Core IEEE754.BinarySingleNaN.
From Verif Require Import Model.Floats Model.SampleFormat Model.Mono Model.Stereo
  Proof.FloatFacts Proof.SampleFormatP Proof.FormatsP.
Import ListNotations.

Lemma mono_try_from_none dec v : mono_try_from dec v = None <-> (length v < 1)%nat.
Proof.
  unfold mono_try_from. destruct (Nat.ltb_spec (length v) 1); split; intro; try lia; try reflexivity; discriminate.
Qed.
Lemma stereo_try_from_none dec v : stereo_try_from dec v = None <-> (length v < 2)%nat.
Proof.
  unfold stereo_try_from. destruct (Nat.ltb_spec (length v) 2); split; intro; try lia; try reflexivity; discriminate.
Qed.
Lemma mono_try_from_prefix dec v w : (1 <= length v)%nat -> mono_try_from dec (v ++ w) = mono_try_from dec v.
Proof. destruct v as [|a v]; simpl; [lia|]. reflexivity. Qed.
Lemma stereo_try_from_prefix dec v w : (2 <= length v)%nat -> stereo_try_from dec (v ++ w) = stereo_try_from dec v.
Proof. destruct v as [|a [|b v]]; simpl; try lia. reflexivity. Qed.

Lemma try_from_errors v :
  (mono_try_from_u8 v = None <-> (length v < 1)%nat) /\
  (mono_try_from_i16 v = None <-> (length v < 1)%nat) /\
  (mono_try_from_i32 v = None <-> (length v < 1)%nat) /\
  (stereo_try_from_u8 v = None <-> (length v < 2)%nat) /\
  (stereo_try_from_i16 v = None <-> (length v < 2)%nat) /\
  (stereo_try_from_i32 v = None <-> (length v < 2)%nat).
Proof.
  repeat split; try apply mono_try_from_none; try apply stereo_try_from_none.
Qed.

Lemma try_from_prefix v w :
  ((1 <= length v)%nat -> mono_try_from_u8 (v ++ w) = mono_try_from_u8 v /\
    mono_try_from_i16 (v ++ w) = mono_try_from_i16 v /\ mono_try_from_i32 (v ++ w) = mono_try_from_i32 v) /\
  ((2 <= length v)%nat -> stereo_try_from_u8 (v ++ w) = stereo_try_from_u8 v /\
    stereo_try_from_i16 (v ++ w) = stereo_try_from_i16 v /\ stereo_try_from_i32 (v ++ w) = stereo_try_from_i32 v).
Proof.
  split; intro H; repeat split; try (apply mono_try_from_prefix, H); apply stereo_try_from_prefix, H.
Qed.

Lemma into_length (a : Mono) (b : Stereo) :
  length (mono_into_u8 a) = mono_num_samples /\ length (mono_into_i16 a) = mono_num_samples /\
  length (mono_into_i32 a) = mono_num_samples /\ length (stereo_into_u8 b) = stereo_num_samples /\
  length (stereo_into_i16 b) = stereo_num_samples /\ length (stereo_into_i32 b) = stereo_num_samples.
Proof. repeat split; reflexivity. Qed.

Lemma mono_vec_round_trip v : length v = 1%nat ->
  (Forall (fun z => 0 <= z <= 255)%Z v -> option_map mono_into_u8 (mono_try_from_u8 v) = Some v) /\
  (Forall (fun z => -32768 <= z <= 32767)%Z v -> option_map mono_into_i16 (mono_try_from_i16 v) = Some v) /\
  (Forall (fun z => - 2 ^ 23 <= z <= 2 ^ 23 - 1)%Z v -> option_map mono_into_i32 (mono_try_from_i32 v) = Some v).
Proof.
  destruct v as [|a [|]]; try discriminate. intros _.
  repeat split; intro H; inversion H; subst; unfold mono_try_from_u8, mono_try_from_i16, mono_try_from_i32, mono_try_from, mono_into_u8, mono_into_i16, mono_into_i32;
    cbn [length Nat.ltb Nat.leb nth option_map mono].
  - rewrite u8_round_trip by assumption. reflexivity.
  - rewrite i16_round_trip by assumption. reflexivity.
  - rewrite i24_round_trip by assumption. reflexivity.
Qed.
Lemma stereo_vec_round_trip v : length v = 2%nat ->
  (Forall (fun z => 0 <= z <= 255)%Z v -> option_map stereo_into_u8 (stereo_try_from_u8 v) = Some v) /\
  (Forall (fun z => -32768 <= z <= 32767)%Z v -> option_map stereo_into_i16 (stereo_try_from_i16 v) = Some v) /\
  (Forall (fun z => - 2 ^ 23 <= z <= 2 ^ 23 - 1)%Z v -> option_map stereo_into_i32 (stereo_try_from_i32 v) = Some v).
Proof.
  destruct v as [|a [|b [|]]]; try discriminate. intros _.
  repeat split; intro H; inversion H as [|? ? ? H']; inversion H'; subst;
    unfold stereo_try_from_u8, stereo_try_from_i16, stereo_try_from_i32, stereo_try_from, stereo_into_u8, stereo_into_i16, stereo_into_i32;
    cbn [length Nat.ltb Nat.leb nth option_map left right].
  - rewrite !u8_round_trip by assumption. reflexivity.
  - rewrite !i16_round_trip by assumption. reflexivity.
  - rewrite !i24_round_trip by assumption. reflexivity.
Qed.

Local Open Scope R_scope.
(** when neither sum nor difference overflows, the two subtractions agree numerically only for b = 0 *)
Lemma mono_sub_adds (a b : f32) : fin a -> fin b -> Rabs (B2R a) <= bpow radix2 126 -> Rabs (B2R b) <= bpow radix2 126 ->
  B2R (mono (mono_sub (mkMono a) (mkMono b))) = rnd32 (B2R a + B2R b) /\
  B2R (mono (mono_sub_assign (mkMono a) (mkMono b))) = rnd32 (B2R a - B2R b).
Proof.
  intros Fa Fb Ha Hb. cbn [mono_sub mono_sub_assign mono].
  destruct (fadd_le a b (bpow radix2 127)) as (A & B & _); [exact Fa|exact Fb|apply fmt32_b; lia|apply bpow_lt; lia| |].
  { eapply Rle_trans; [apply Rabs_triang|]. change 127%Z with (126 + 1)%Z. rewrite bpow_double. lra. }
  destruct (fsub_le a b (bpow radix2 127)) as (C & D & _); [exact Fa|exact Fb|apply fmt32_b; lia|apply bpow_lt; lia| |].
  { unfold Rminus. eapply Rle_trans; [apply Rabs_triang|]. rewrite Rabs_Ropp. change 127%Z with (126 + 1)%Z. rewrite bpow_double. lra. }
  auto.
Qed.

Lemma mono_op_assign (a b : Mono) (r : f32) (g : f64) :
  mono_add a b = mono_add_assign a b /\ mono_mul a b = mono_mul_assign a b /\
  mono_mul_s a r = mono_mul_s_assign a r /\ mono_mul_m a g = mono_mul_m_assign a g /\
  mono_mul_s a r = mono_mul a (mkMono r) /\
  mono_neg (mono_neg a) = a.
Proof.
  repeat split. destruct a as [a]. unfold mono_neg. cbn [mono]. f_equal. apply Bopp_involutive.
Qed.

(** every Stereo operator is the Mono operator applied to each channel, subtraction being the
    assigning (real) one *)
Definition chan (s : Stereo) (i : bool) : Mono := mkMono (if i then right s else left s).
Lemma stereo_op_channels (a b : Stereo) (r : f32) (g : f64) (i : bool) :
  chan (stereo_add a b) i = mono_add (chan a i) (chan b i) /\
  chan (stereo_add_assign a b) i = mono_add (chan a i) (chan b i) /\
  chan (stereo_sub a b) i = mono_sub_assign (chan a i) (chan b i) /\
  chan (stereo_sub_assign a b) i = mono_sub_assign (chan a i) (chan b i) /\
  chan (stereo_mul a b) i = mono_mul (chan a i) (chan b i) /\
  chan (stereo_mul_assign a b) i = mono_mul (chan a i) (chan b i) /\
  chan (stereo_mul_s a r) i = mono_mul_s (chan a i) r /\
  chan (stereo_mul_s_assign a r) i = mono_mul_s (chan a i) r /\
  chan (stereo_mul_m a g) i = mono_mul_m (chan a i) g /\
  chan (stereo_neg a) i = mono_neg (chan a i).
Proof. destruct i; repeat split; reflexivity. Qed.

(** [*= f64] agrees with [* f64] up to a relative 3*2^-24 wherever nothing over- or underflows *)
Lemma fmul32_rel (x y : f32) : fin x -> fin y ->
  bpow radix2 (-126) <= Rabs (B2R x * B2R y) <= bpow radix2 127 ->
  fin (fmul x y) /\ exists d, Rabs d <= bpow radix2 (-24) /\ B2R (fmul x y) = B2R x * B2R y * (1 + d).
Proof.
  intros Fx Fy [H1 H2].
  destruct (fmul_le x y (bpow radix2 127) Fx Fy) as (A & B & _); [apply fmt32_b; lia|apply bpow_lt; lia|exact H2|].
  split; [exact A|]. rewrite B. apply (rnd_rel (prec:=24) (emax:=128)). exact H1.
Qed.

Lemma to32_rel (r : f64) : fin r -> bpow radix2 (-125) <= Rabs (B2R r) <= bpow radix2 126 ->
  fin (to32 r) /\ exists d, Rabs d <= bpow radix2 (-24) /\ B2R (to32 r) = B2R r * (1 + d).
Proof.
  intros F [H1 H2]. destruct (fcast_le (p2:=24) (e2:=128) r (bpow radix2 126) F) as (A & B & _);
    [apply fmt32_b; lia|apply bpow_lt; lia|exact H2|].
  split; [exact A|]. unfold to32. rewrite B. apply (rnd_rel (prec:=24) (emax:=128)).
  apply Rle_trans with (2 := H1). apply bpow_le. unfold SpecFloat.emin. lia.
Qed.

Lemma bpow_sandwich (a e f : Z) x y : bpow radix2 a <= x -> bpow radix2 e <= y -> (f <= a + e)%Z ->
  bpow radix2 f <= x * y.
Proof.
  intros Hx Hy H. apply Rle_trans with (bpow radix2 (a + e)); [apply bpow_le, H|].
  rewrite bpow_plus. apply Rmult_le_compat; try assumption; apply bpow_ge_0.
Qed.
Lemma bpow_sandwich_u (a e f : Z) x y : 0 <= x -> 0 <= y -> x <= bpow radix2 a -> y <= bpow radix2 e -> (a + e <= f)%Z ->
  x * y <= bpow radix2 f.
Proof.
  intros Px Py Hx Hy H. apply Rle_trans with (bpow radix2 (a + e)); [|apply bpow_le, H].
  rewrite bpow_plus. apply Rmult_le_compat; assumption.
Qed.

Lemma mul_m_close (x : f32) (r : f64) : fin x -> fin r ->
  bpow radix2 (-60) <= Rabs (B2R x) <= bpow radix2 60 ->
  bpow radix2 (-60) <= Rabs (B2R r) <= bpow radix2 60 ->
  Rabs (B2R (to32 (fmul (to64 x) r)) - B2R (fmul x (to32 r))) <= bpow radix2 (-22) * Rabs (B2R x * B2R r).
Proof.
  intros Fx Fr [X1 X2] [R1 R2]. destruct (to64_ok x Fx) as [F64 V64].
  pose proof (Rabs_pos (B2R x)) as PX. pose proof (Rabs_pos (B2R r)) as PR.
  assert (L : bpow radix2 (-120) <= Rabs (B2R x * B2R r)).
  { rewrite Rabs_mult. apply (bpow_sandwich (-60) (-60)); try assumption; lia. }
  assert (U : Rabs (B2R x * B2R r) <= bpow radix2 120).
  { rewrite Rabs_mult. apply (bpow_sandwich_u 60 60); try assumption; lia. }
  (* left *)
  destruct (fmul_le (to64 x) r (bpow radix2 120) F64 Fr) as (A & B & C);
    [apply fmt64_b; lia|apply bpow_lt; lia|rewrite V64; exact U|]. rewrite V64 in B.
  destruct (rnd_rel (prec:=53) (emax:=1024) (B2R x * B2R r)) as (d1 & D1 & E1).
  { apply Rle_trans with (2 := L). apply bpow_le. unfold SpecFloat.emin. lia. }
  change (Rabs d1 <= / 9007199254740992) in D1.
  assert (LA : bpow radix2 (-125) <= Rabs (B2R (fmul (to64 x) r))).
  { rewrite B.
    rewrite E1, Rabs_mult. apply Rabs_le_inv in D1. rewrite (Rabs_pos_eq (1 + d1)) by lra.
    apply Rle_trans with (Rabs (B2R x * B2R r) * / 2); [|apply Rmult_le_compat_l; [apply Rabs_pos|lra]].
    apply Rle_trans with (bpow radix2 (-120) * / 2); [|lra].
    change (/ 2) with (bpow radix2 (-1)). rewrite <- bpow_plus. apply bpow_le. lia. }
  destruct (to32_rel (fmul (to64 x) r) A) as (G & d2 & D2 & E2).
  { split; [exact LA|]. apply Rle_trans with (1 := C). apply bpow_le. lia. }
  (* right *)
  destruct (to32_rel r Fr) as (H & d3 & D3 & E3).
  { split; [apply Rle_trans with (2 := R1)|apply Rle_trans with (1 := R2)]; apply bpow_le; lia. }
  change (Rabs d2 <= / 16777216) in D2. change (Rabs d3 <= / 16777216) in D3.
  apply Rabs_le_inv in D1. apply Rabs_le_inv in D2. apply Rabs_le_inv in D3.
  assert (V3 : Rabs (B2R x * B2R (to32 r)) = Rabs (B2R x * B2R r) * (1 + d3)).
  { rewrite E3, <- Rmult_assoc, Rabs_mult, (Rabs_pos_eq (1 + d3)) by lra. reflexivity. }
  destruct (fmul32_rel x (to32 r) Fx H) as (K & d4 & D4 & E4).
  { rewrite V3. split.
    - apply Rle_trans with (Rabs (B2R x * B2R r) * / 2); [|apply Rmult_le_compat_l; [apply Rabs_pos|lra]].
      apply Rle_trans with (bpow radix2 (-120) * / 2); [|lra].
      change (/ 2) with (bpow radix2 (-1)). rewrite <- bpow_plus. apply bpow_le. lia.
    - apply Rle_trans with (Rabs (B2R x * B2R r) * 2); [apply Rmult_le_compat_l; [apply Rabs_pos|lra]|].
      apply Rle_trans with (bpow radix2 120 * 2); [lra|].
      change 2 with (bpow radix2 1). rewrite <- bpow_plus. apply bpow_le. lia. }
  change (Rabs d4 <= / 16777216) in D4. apply Rabs_le_inv in D4.
  rewrite E4, E2, B, E1, E3.
  replace (B2R x * B2R r * (1 + d1) * (1 + d2) - B2R x * (B2R r * (1 + d3)) * (1 + d4))
    with (((1 + d1) * (1 + d2) - (1 + d3) * (1 + d4)) * (B2R x * B2R r)) by ring.
  rewrite Rabs_mult. apply Rmult_le_compat_r; [apply Rabs_pos|].
  change (bpow radix2 (-22)) with (/ 4194304).
  assert (T1 : Rabs (d1 * d2) <= / 16777216 * / 16777216) by (rewrite Rabs_mult; apply Rmult_le_compat; try apply Rabs_pos; apply Rabs_le; lra).
  assert (T2 : Rabs (d3 * d4) <= / 16777216 * / 16777216) by (rewrite Rabs_mult; apply Rmult_le_compat; try apply Rabs_pos; apply Rabs_le; lra).
  apply Rabs_le_inv in T1. apply Rabs_le_inv in T2. apply Rabs_le. lra.
Qed.

Lemma stereo_mul_m_close (a : Stereo) (r : f64) (i : bool) : fin (mono (chan a i)) -> fin r ->
  bpow radix2 (-60) <= Rabs (B2R (mono (chan a i))) <= bpow radix2 60 ->
  bpow radix2 (-60) <= Rabs (B2R r) <= bpow radix2 60 ->
  Rabs (B2R (mono (chan (stereo_mul_m a r) i)) - B2R (mono (chan (stereo_mul_m_assign a r) i)))
    <= bpow radix2 (-22) * Rabs (B2R (mono (chan a i)) * B2R r).
Proof. destruct i; intros; apply mul_m_close; assumption. Qed.

(** ** the sample made by [new] is silence *)
Lemma new_silent (a : Mono) : is_finite (mono a) = true ->
  is_finite (mono (mono_add mono_new a)) = true /\ B2R (mono (mono_add mono_new a)) = B2R (mono a) /\
  is_finite (mono (mono_add a mono_new)) = true /\ B2R (mono (mono_add a mono_new)) = B2R (mono a).
Proof. destruct a as [x]. cbn [mono]. destruct x as [[]|[]| |s m e H]; intro F; try discriminate F; repeat split; reflexivity. Qed.
Lemma stereo_new_silent (a : Stereo) (i : bool) : is_finite (mono (chan a i)) = true ->
  is_finite (mono (chan (stereo_add stereo_new a) i)) = true /\ B2R (mono (chan (stereo_add stereo_new a) i)) = B2R (mono (chan a i)) /\
  is_finite (mono (chan (stereo_add a stereo_new) i)) = true /\ B2R (mono (chan (stereo_add a stereo_new) i)) = B2R (mono (chan a i)).
Proof. intro F. destruct i; exact (new_silent _ F). Qed.
