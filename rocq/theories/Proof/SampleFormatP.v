(** * Proofs about the sample conversions *)

From Coq Require Import ZArith List Bool Reals Lra Lia Psatz.
From Flocq Require Import Core.Core IEEE754.BinarySingleNaN.
From Verif Require Import Model.Floats Model.SampleFormat Proof.FloatFacts.
Import ListNotations.
Local Open Scope R_scope.

Notation fexp32 := (SpecFloat.fexp 24 128).
Notation fmt32 := (generic_format radix2 fexp32).
Notation rnd32 := (round radix2 fexp32 ZnearestE).

Lemma k16_ok : fin k16 /\ B2R k16 = 32767.
Proof.
  destruct (B2R_of_SF k16 false 16776704 (-9)) as [A B]; [vm_compute; reflexivity|].
  split; [exact A|]. rewrite B. simpl. lra.
Qed.
Lemma k24_ok : fin k24 /\ B2R k24 = 8388607.
Proof.
  destruct (B2R_of_SF k24 false 16777214 (-1)) as [A B]; [vm_compute; reflexivity|].
  split; [exact A|]. rewrite B. simpl. lra.
Qed.
Lemma c128_ok : fin c128 /\ B2R c128 = 128.
Proof.
  destruct (B2R_of_SF c128 false 8388608 (-16)) as [A B]; [vm_compute; reflexivity|].
  split; [exact A|]. rewrite B. simpl. lra.
Qed.

Lemma fmt32_b e : (-149 <= e)%Z -> fmt32 (bpow radix2 e).
Proof. intro H. apply fmt_bpow. unfold SpecFloat.emin. lia. Qed.
Lemma fmt32_Z z : (Z.abs z <= 2 ^ 24)%Z -> fmt32 (IZR z).
Proof. intro H. apply fmt_IZR. exact H. Qed.

Lemma of_Z32 z : (Z.abs z <= 2 ^ 24)%Z -> fin (of_Z z : f32) /\ B2R (of_Z z : f32) = IZR z.
Proof. apply of_Z_ok. Qed.

Lemma bpow_128_big : IZR (2 ^ 100) < bpow radix2 128.
Proof. rewrite IZR_pow2 by lia. apply bpow_lt. lia. Qed.

(** nearest integer facts *)
Lemma ZnearestA_close x v : Rabs (x - IZR v) < / 2 -> ZnearestA x = v.
Proof. apply Znearest_imp. Qed.
Lemma ZnearestA_half x : Rabs (IZR (ZnearestA x) - x) <= / 2.
Proof. rewrite Rabs_minus_sym. apply Znearest_half. Qed.
Lemma ZnearestA_IZR v : ZnearestA (IZR v) = v.
Proof. apply ZnearestA_close. rewrite Rminus_diag_eq by reflexivity. rewrite Rabs_R0. lra. Qed.
Lemma ZnearestA_le x y : x <= y -> (ZnearestA x <= ZnearestA y)%Z.
Proof. apply (valid_rnd_N (Z.leb 0)). Qed.

Lemma ZnearestA_le_Z x z : x <= IZR z -> (ZnearestA x <= z)%Z.
Proof. intro H. rewrite <- (ZnearestA_IZR z). apply ZnearestA_le, H. Qed.
Lemma ZnearestA_ge_Z x z : IZR z <= x -> (z <= ZnearestA x)%Z.
Proof. intro H. rewrite <- (ZnearestA_IZR z). apply ZnearestA_le, H. Qed.

(** encoders on finite samples, as a formula in the reals *)
Lemma to_i16_fin s : fin s -> Rabs (B2R s) <= 2 ^ 60 ->
  sample_to_i16 s = Z.max (-32768) (Z.min 32767 (ZnearestA (rnd32 (B2R s * 32767)))).
Proof.
  intros Fs Hs. destruct k16_ok as [Fk Vk].
  destruct (fmul_le s k16 (bpow radix2 75)) as (A & B & _); [exact Fs|exact Fk|apply fmt32_b; lia|apply bpow_lt; lia| |].
  { rewrite Vk, Rabs_mult, (Rabs_pos_eq 32767) by lra. simpl bpow. lra. }
  unfold sample_to_i16. destruct (fround_ok _ A) as [C D].
  unfold to_i16. rewrite (to_int_fin _ _ _ C), D, Ztrunc_IZR, B, Vk. reflexivity.
Qed.

Lemma to_i24_fin s : fin s -> Rabs (B2R s) <= 2 ^ 60 ->
  sample_to_i24 s = Z.max (- 2 ^ 31) (Z.min (2 ^ 31 - 1) (ZnearestA (rnd32 (B2R s * 8388607)))).
Proof.
  intros Fs Hs. destruct k24_ok as [Fk Vk].
  destruct (fmul_le s k24 (bpow radix2 83)) as (A & B & _); [exact Fs|exact Fk|apply fmt32_b; lia|apply bpow_lt; lia| |].
  { rewrite Vk, Rabs_mult, (Rabs_pos_eq 8388607) by lra. simpl bpow. lra. }
  unfold sample_to_i24. destruct (fround_ok _ A) as [C D].
  unfold to_i32. rewrite (to_int_fin _ _ _ C), D, Ztrunc_IZR, B, Vk. reflexivity.
Qed.

Lemma fmt32_mul_bpow x e : fmt32 x -> (0 <= e)%Z -> fmt32 (x * bpow radix2 e).
Proof.
  intros Hx He. destruct (Req_dec x 0) as [->|Nx]; [rewrite Rmult_0_l; apply generic_format_0|].
  apply (generic_format_FLT radix2 (-149) 24).
  apply (FLT_format_generic radix2 (-149) 24) in Hx. destruct Hx as [f E1 E2 E3].
  exists (Float radix2 (Fnum f) (Fexp f + e)); simpl; [|exact E2|lia].
  rewrite E1. unfold F2R. simpl. rewrite bpow_plus. ring.
Qed.

Lemma to_u8_fin s : fin s -> Rabs (B2R s) <= 2 ^ 60 ->
  sample_to_u8 s = Z.max 0 (Z.min 255 (ZnearestA (rnd32 (B2R s * 128 + 128)))).
Proof.
  intros Fs Hs. destruct c128_ok as [Fk Vk].
  destruct (fmul_le s c128 (bpow radix2 67)) as (A & B & E); [exact Fs|exact Fk|apply fmt32_b; lia|apply bpow_lt; lia| |].
  { rewrite Vk, Rabs_mult, (Rabs_pos_eq 128) by lra. simpl bpow. lra. }
  assert (B' : B2R (fmul s c128) = B2R s * 128).
  { rewrite B, Vk. apply rnd_fmt.
    replace 128 with (bpow radix2 7) by (simpl; lra). apply fmt32_mul_bpow; [apply fmt_B2R|lia]. }
  destruct (fadd_le (fmul s c128) c128 (bpow radix2 68)) as (A2 & B2 & _);
    [exact A|exact Fk|apply fmt32_b; lia|apply bpow_lt; lia| |].
  { rewrite Vk. eapply Rle_trans; [apply Rabs_triang|]. rewrite (Rabs_pos_eq 128) by lra.
    simpl bpow in E. simpl bpow. lra. }
  unfold sample_to_u8. destruct (fround_ok _ A2) as [C D].
  unfold to_u8. rewrite (to_int_fin _ _ _ C), D, Ztrunc_IZR, B2, B', Vk. reflexivity.
Qed.

(** decoders *)
Lemma from_u8_ok v : (0 <= v <= 255)%Z ->
  fin (sample_from_u8 v) /\ B2R (sample_from_u8 v) = (IZR v - 128) / 128.
Proof.
  intro Hv. destruct (of_Z32 v) as [A B]; [lia|]. destruct c128_ok as [Fk Vk].
  assert (Hr : 0 <= IZR v <= 255) by (split; apply IZR_le; lia).
  destruct (fsub_le (of_Z v) c128 256) as (A1 & B1 & _); [exact A|exact Fk|apply (fmt32_Z 256); lia| | |].
  { pose proof bpow_128_big as Q. lra. }
  { rewrite B, Vk. apply Rabs_le. lra. }
  rewrite B, Vk in B1.
  assert (B1' : B2R (fsub (of_Z v) c128) = IZR v - 128).
  { rewrite B1. apply rnd_fmt. rewrite <- minus_IZR. apply fmt32_Z. lia. }
  destruct (fdiv_le (fsub (of_Z v) c128) c128 1) as (A2 & B2 & _);
    [exact A1|rewrite Vk; lra|apply (fmt32_Z 1); lia| | |].
  { pose proof bpow_128_big as Q. lra. }
  { rewrite B1', Vk. apply Rabs_le. lra. }
  split; [exact A2|]. unfold sample_from_u8. rewrite B2, B1', Vk.
  apply rnd_fmt. rewrite <- minus_IZR.
  replace (IZR (v - 128) / 128) with (IZR (v - 128) * bpow radix2 (-7)) by (simpl; lra).
  apply fmt_FLT; [lia|unfold SpecFloat.emin; lia].
Qed.

Lemma from_i16_ok v : (-32768 <= v <= 32767)%Z ->
  fin (sample_from_i16 v) /\ B2R (sample_from_i16 v) = rnd32 (IZR v / 32767) /\
  Rabs (B2R (sample_from_i16 v)) <= 2.
Proof.
  intro Hv. destruct (of_Z32 v) as [A B]; [lia|]. destruct k16_ok as [Fk Vk].
  assert (Hr : -32768 <= IZR v <= 32767) by (split; apply IZR_le; lia).
  unfold sample_from_i16. rewrite <- Vk, <- B.
  apply fdiv_le; [exact A|lra|apply (fmt32_Z 2); lia| |].
  - pose proof bpow_128_big. lra.
  - rewrite B, Vk. apply Rabs_le. lra.
Qed.

Lemma from_i24_ok v : (Z.abs v <= 2 ^ 24)%Z ->
  fin (sample_from_i24 v) /\ B2R (sample_from_i24 v) = rnd32 (IZR v / 8388607) /\
  Rabs (B2R (sample_from_i24 v)) <= 4.
Proof.
  intro Hv. destruct (of_Z32 v) as [A B]; [lia|]. destruct k24_ok as [Fk Vk].
  assert (Hr : -16777216 <= IZR v <= 16777216) by (split; apply IZR_le; lia).
  unfold sample_from_i24. rewrite <- Vk, <- B.
  apply fdiv_le; [exact A|lra|apply (fmt32_Z 4); lia| |].
  - pose proof bpow_128_big. lra.
  - rewrite B, Vk. apply Rabs_le. lra.
Qed.

(** ** C01 *)
Lemma u8_round_trip v : (0 <= v <= 255)%Z -> sample_to_u8 (sample_from_u8 v) = v.
Proof.
  intro Hv. destruct (from_u8_ok v Hv) as [A B].
  assert (Hr : 0 <= IZR v <= 255) by (split; apply IZR_le; lia).
  rewrite to_u8_fin; [|exact A|rewrite B; apply Rabs_le; lra].
  rewrite B. replace ((IZR v - 128) / 128 * 128 + 128) with (IZR v) by field.
  rewrite rnd_fmt by (apply fmt32_Z; lia).
  rewrite ZnearestA_IZR. lia.
Qed.

(** ** C02 *)
Lemma Rabs_tri3 a b c : Rabs (a - c) <= Rabs (a - b) + Rabs (b - c).
Proof. replace (a - c) with ((a - b) + (b - c)) by ring. apply Rabs_triang. Qed.

Lemma i16_round_trip v : (-32768 <= v <= 32767)%Z -> sample_to_i16 (sample_from_i16 v) = v.
Proof.
  intro Hv. destruct (from_i16_ok v Hv) as (A & B & C).
  assert (Hr : -32768 <= IZR v <= 32767) by (split; apply IZR_le; lia).
  rewrite to_i16_fin; [|exact A|lra].
  rewrite ZnearestA_close with (v := v); [lia|].
  set (q := B2R (sample_from_i16 v)) in *.
  assert (E1 : Rabs (q - IZR v / 32767) <= bpow radix2 (-24)).
  { rewrite B. apply (rnd_err (prec:=24) (emax:=128) 1); [unfold SpecFloat.emin; lia|]. simpl. apply Rabs_le. lra. }
  assert (E2 : Rabs (q * 32767 - IZR v) <= 1/512).
  { replace (q * 32767 - IZR v) with ((q - IZR v / 32767) * 32767) by field.
    rewrite Rabs_mult, (Rabs_pos_eq 32767) by lra. simpl bpow in E1. lra. }
  assert (E3 : Rabs (rnd32 (q * 32767) - q * 32767) <= bpow radix2 (-9)).
  { apply (rnd_err (prec:=24) (emax:=128) 16); [unfold SpecFloat.emin; lia|]. simpl. apply Rabs_le_inv in E2. apply Rabs_le. lra. }
  eapply Rle_lt_trans; [apply (Rabs_tri3 _ (q * 32767))|]. simpl bpow in E3. lra.
Qed.

(** ** C03 *)
Lemma i24_round_trip_abs v : (-8388607 <= v <= 8388607)%Z -> sample_to_i24 (sample_from_i24 v) = v.
Proof.
  intro Hv. destruct (from_i24_ok v ltac:(lia)) as (A & B & C).
  assert (Hr : -8388607 <= IZR v <= 8388607) by (split; apply IZR_le; lia).
  rewrite to_i24_fin; [|exact A|lra].
  rewrite ZnearestA_close with (v := v); [lia|].
  set (q := B2R (sample_from_i24 v)) in *.
  assert (E1 : Rabs (q - IZR v / 8388607) <= bpow radix2 (-25)).
  { rewrite B. apply (rnd_err (prec:=24) (emax:=128) 0); [unfold SpecFloat.emin; lia|]. simpl. apply Rabs_le. lra. }
  assert (E0 : Rabs q <= 1).
  { rewrite B. apply rnd_abs_le; [apply (fmt32_Z 1); lia|apply Rabs_le; lra]. }
  assert (E2 : Rabs (q * 8388607 - IZR v) <= 8388607 * bpow radix2 (-25)).
  { replace (q * 8388607 - IZR v) with ((q - IZR v / 8388607) * 8388607) by field.
    rewrite Rabs_mult, (Rabs_pos_eq 8388607) by lra. lra. }
  assert (E3 : Rabs (rnd32 (q * 8388607) - q * 8388607) <= bpow radix2 (-2)).
  { apply (rnd_err (prec:=24) (emax:=128) 23); [unfold SpecFloat.emin; lia|].
    rewrite Rabs_mult, (Rabs_pos_eq 8388607) by lra. simpl. lra. }
  eapply Rle_lt_trans; [apply (Rabs_tri3 _ (q * 8388607))|]. simpl bpow in E3, E2. lra.
Qed.

Lemma i24_round_trip v : (- 2 ^ 23 <= v <= 2 ^ 23 - 1)%Z -> sample_to_i24 (sample_from_i24 v) = v.
Proof.
  intro Hv. destruct (Z.eq_dec v (- 2 ^ 23)) as [->|N]; [vm_compute; reflexivity|].
  apply i24_round_trip_abs. lia.
Qed.

(** ** bytes *)
Lemma byte_split a : (0 <= a mod 256 < 256)%Z.
Proof. apply Z.mod_pos_bound; lia. Qed.

Lemma to_le_4 v : to_le 4 v = [v mod 256; v / 256 mod 256; v / 256 / 256 mod 256; v / 256 / 256 / 256 mod 256]%Z.
Proof. reflexivity. Qed.

Lemma i16_bytes_inv v : (-32768 <= v <= 32767)%Z -> from_le_s (to_le 2 v) = v.
Proof.
  intro Hv. unfold from_le_s. cbn [to_le from_le_u length]. cbv zeta.
  change (2 ^ (8 * Z.of_nat 2))%Z with 65536%Z. change (65536 / 2)%Z with 32768%Z.
  pose proof (Z.div_mod v 256 ltac:(lia)). pose proof (byte_split v).
  pose proof (Z.div_mod (v/256) 256 ltac:(lia)). pose proof (byte_split (v/256)).
  destruct (Z.ltb_spec (v mod 256 + 256 * ((v/256) mod 256 + 256 * 0)) 32768); lia.
Qed.

Lemma le2_bytes_inv a b : (0 <= a < 256)%Z -> (0 <= b < 256)%Z -> to_le 2 (from_le_s [a; b]) = [a; b].
Proof.
  intros Ha Hb. unfold from_le_s. cbn [from_le_u length]. cbv zeta.
  change (2 ^ (8 * Z.of_nat 2))%Z with 65536%Z. change (65536 / 2)%Z with 32768%Z.
  set (u := (a + 256 * (b + 256 * 0))%Z).
  cbn [to_le].
  destruct (Z.ltb_spec u 32768).
  - assert (E : (u / 256 = b)%Z) by (symmetry; apply Z.div_unique with a; unfold u; lia).
    assert (E' : (u mod 256 = a)%Z) by (symmetry; apply Z.mod_unique with b; unfold u; lia).
    rewrite E, E'. rewrite (Z.mod_small b) by lia. reflexivity.
  - assert (E : ((u - 65536) / 256 = b - 256)%Z) by (symmetry; apply Z.div_unique with a; unfold u; lia).
    assert (E' : ((u - 65536) mod 256 = a)%Z) by (symmetry; apply Z.mod_unique with (b - 256)%Z; unfold u; lia).
    rewrite E, E'. replace ((b - 256) mod 256)%Z with b; [reflexivity|].
    apply Z.mod_unique with (-1)%Z; lia.
Qed.

Lemma from_le_s2_range a b : (0 <= a < 256)%Z -> (0 <= b < 256)%Z -> (-32768 <= from_le_s [a; b] <= 32767)%Z.
Proof.
  intros Ha Hb. unfold from_le_s. cbn [from_le_u length]. cbv zeta.
  change (2 ^ (8 * Z.of_nat 2))%Z with 65536%Z. change (65536 / 2)%Z with 32768%Z.
  destruct (Z.ltb_spec (a + 256 * (b + 256 * 0)) 32768); lia.
Qed.

(** reading three bytes with a zero top byte gives the residue modulo 2^24 *)
Lemma i24_bytes_residue v :
  from_le_s [nth 0 (firstn 3 (to_le 4 v)) 0; nth 1 (firstn 3 (to_le 4 v)) 0; nth 2 (firstn 3 (to_le 4 v)) 0; 0]%Z
  = (v mod 2 ^ 24)%Z.
Proof.
  rewrite to_le_4. cbn [firstn nth]. unfold from_le_s. cbn [from_le_u length]. cbv zeta.
  change (2 ^ (8 * Z.of_nat 4))%Z with 4294967296%Z. change (4294967296 / 2)%Z with 2147483648%Z.
  change (2 ^ 24)%Z with 16777216%Z.
  pose proof (Z.div_mod v 256 ltac:(lia)). pose proof (byte_split v).
  pose proof (Z.div_mod (v/256) 256 ltac:(lia)). pose proof (byte_split (v/256)).
  pose proof (Z.div_mod (v/256/256) 256 ltac:(lia)). pose proof (byte_split (v/256/256)).
  destruct (Z.ltb_spec (v mod 256 + 256 * ((v/256) mod 256 + 256 * ((v/256/256) mod 256 + 256 * (0 + 256 * 0)))) 2147483648); [|lia].
  apply Z.mod_unique with (v/256/256/256)%Z; lia.
Qed.

(** decoders are injective enough: the i24 decoder is strictly positive on positive integers *)
Lemma from_i24_pos v : (0 < v <= 2 ^ 24)%Z -> 0 < B2R (sample_from_i24 v).
Proof.
  intro Hv. destruct (from_i24_ok v ltac:(lia)) as (_ & B & _). rewrite B.
  assert (1 <= IZR v) by (apply IZR_le; lia).
  apply Rlt_le_trans with (bpow radix2 (-23)); [apply bpow_gt_0|].
  apply rnd_ge_fmt; [apply fmt32_b; lia|]. simpl. lra.
Qed.
Lemma from_i24_neg v : (- 2 ^ 24 <= v < 0)%Z -> B2R (sample_from_i24 v) < 0.
Proof.
  intro Hv. destruct (from_i24_ok v ltac:(lia)) as (_ & B & _). rewrite B.
  assert (IZR v <= -1) by (apply IZR_le; lia).
  apply Rle_lt_trans with (- bpow radix2 (-23)); [|pose proof (bpow_gt_0 radix2 (-23)); lra].
  apply rnd_le_fmt; [apply fmt_opp, fmt32_b; lia|]. simpl. lra.
Qed.

Lemma i24_bytes_decode v : (- 2 ^ 23 <= v <= 2 ^ 23 - 1)%Z ->
  sample_from_i24_bytes (sample_to_i24_bytes (sample_from_i24 v)) = sample_from_i24 (v mod 2 ^ 24).
Proof.
  intro Hv. unfold sample_from_i24_bytes, sample_to_i24_bytes.
  rewrite (i24_round_trip v Hv). rewrite i24_bytes_residue. reflexivity.
Qed.

(** ** C06: monotone *)
Lemma mono_i16 s t : fle s t = true -> (sample_to_i16 s <= sample_to_i16 t)%Z.
Proof.
  intro H.
  assert (Ns : is_nan s = false) by (destruct s; try reflexivity; destruct t; discriminate H).
  assert (Nt : is_nan t = false) by (destruct t; try reflexivity; destruct s as [[]|[]| |[] ? ? ?]; discriminate H).
  destruct k16_ok as [Fk Vk].
  destruct (fmul_ext s k16 Ns Fk) as [N1 E1]; [lra|].
  destruct (fmul_ext t k16 Nt Fk) as [N2 E2]; [lra|].
  apply round_to_int_mono; [lia|exact N1|exact N2|].
  apply fle_ext; [exact N1|exact N2|]. rewrite E1, E2. apply sat_le, rnd_le.
  rewrite fle_ext in H by assumption. rewrite Vk. lra.
Qed.
Lemma mono_i24 s t : fle s t = true -> (sample_to_i24 s <= sample_to_i24 t)%Z.
Proof.
  intro H.
  assert (Ns : is_nan s = false) by (destruct s; try reflexivity; destruct t; discriminate H).
  assert (Nt : is_nan t = false) by (destruct t; try reflexivity; destruct s as [[]|[]| |[] ? ? ?]; discriminate H).
  destruct k24_ok as [Fk Vk].
  destruct (fmul_ext s k24 Ns Fk) as [N1 E1]; [lra|].
  destruct (fmul_ext t k24 Nt Fk) as [N2 E2]; [lra|].
  apply round_to_int_mono; [lia|exact N1|exact N2|].
  apply fle_ext; [exact N1|exact N2|]. rewrite E1, E2. apply sat_le, rnd_le.
  rewrite fle_ext in H by assumption. rewrite Vk. lra.
Qed.
Lemma mono_u8 s t : fle s t = true -> (sample_to_u8 s <= sample_to_u8 t)%Z.
Proof.
  intro H.
  assert (Ns : is_nan s = false) by (destruct s; try reflexivity; destruct t; discriminate H).
  assert (Nt : is_nan t = false) by (destruct t; try reflexivity; destruct s as [[]|[]| |[] ? ? ?]; discriminate H).
  destruct c128_ok as [Fk Vk].
  destruct (fmul_ext s c128 Ns Fk) as [N1 E1]; [lra|].
  destruct (fmul_ext t c128 Nt Fk) as [N2 E2]; [lra|].
  assert (L : fle (fmul s c128) (fmul t c128) = true).
  { apply fle_ext; [exact N1|exact N2|]. rewrite E1, E2. apply sat_le, rnd_le.
    rewrite fle_ext in H by assumption. rewrite Vk. lra. }
  destruct (fadd_mono _ _ c128 N1 N2 Fk L) as (M1 & M2 & M3).
  apply round_to_int_mono; [lia|exact M1|exact M2|exact M3].
Qed.

(** ** C05: accuracy *)
Lemma acc_i16 s : fin s -> Rabs (B2R s) <= 1 ->
  Rabs (IZR (sample_to_i16 s) - 32767 * B2R s) <= / 2 + bpow radix2 (-10).
Proof.
  intros Fs Hs. rewrite to_i16_fin; [|exact Fs|lra].
  set (p := rnd32 (B2R s * 32767)).
  assert (Hp : Rabs p <= 32767).
  { apply rnd_abs_le; [apply (fmt32_Z 32767); lia|].
    rewrite Rabs_mult, (Rabs_pos_eq 32767) by lra. lra. }
  assert (Hz : (-32767 <= ZnearestA p <= 32767)%Z).
  { apply Rabs_le_inv in Hp. split.
    - apply ZnearestA_ge_Z. lra.
    - apply ZnearestA_le_Z. lra. }
  replace (Z.max (-32768) (Z.min 32767 (ZnearestA p)))%Z with (ZnearestA p) by lia.
  eapply Rle_trans; [apply (Rabs_tri3 _ p)|].
  apply Rplus_le_compat; [apply ZnearestA_half|].
  unfold p. rewrite (Rmult_comm 32767). apply (rnd_err (prec:=24) (emax:=128) 15); [unfold SpecFloat.emin; lia|].
  rewrite Rabs_mult, (Rabs_pos_eq 32767) by lra. simpl. lra.
Qed.

Lemma i24_product_bound (s : f32) : Rabs (B2R s) <= 1 -> Rabs (rnd32 (B2R s * 8388607)) <= 8388607.
Proof.
  intro Hs. apply rnd_abs_le; [apply (fmt32_Z 8388607); lia|].
  rewrite Rabs_mult, (Rabs_pos_eq 8388607) by lra. lra.
Qed.
Lemma i24_nearest_bound (s : f32) : Rabs (B2R s) <= 1 ->
  (-8388607 <= ZnearestA (rnd32 (B2R s * 8388607)) <= 8388607)%Z.
Proof.
  intro Hs. pose proof (i24_product_bound s Hs) as Hp. apply Rabs_le_inv in Hp. split.
  - apply ZnearestA_ge_Z. lra.
  - apply ZnearestA_le_Z. lra.
Qed.

Lemma acc_i24 s : fin s -> Rabs (B2R s) <= 1 ->
  Rabs (IZR (sample_to_i24 s) - 8388607 * B2R s) <= / 2 + / 4.
Proof.
  intros Fs Hs. rewrite to_i24_fin; [|exact Fs|lra].
  pose proof (i24_nearest_bound s Hs) as Hz.
  set (p := rnd32 (B2R s * 8388607)) in *.
  replace (Z.max (- 2 ^ 31) (Z.min (2 ^ 31 - 1) (ZnearestA p)))%Z with (ZnearestA p) by lia.
  eapply Rle_trans; [apply (Rabs_tri3 _ p)|].
  apply Rplus_le_compat; [apply ZnearestA_half|].
  unfold p. rewrite (Rmult_comm 8388607).
  replace (/ 4) with (bpow radix2 (23 - 24 - 1)) by (simpl; lra).
  apply (rnd_err (prec:=24) (emax:=128) 23); [unfold SpecFloat.emin; lia|].
  rewrite Rabs_mult, (Rabs_pos_eq 8388607) by lra. simpl. lra.
Qed.

Lemma acc_u8 s : fin s -> Rabs (B2R s) <= 1 ->
  exists k, sample_to_u8 s = Z.min 255 k /\ Rabs (IZR k - (128 * B2R s + 128)) <= / 2 + bpow radix2 (-17).
Proof.
  intros Fs Hs. rewrite to_u8_fin; [|exact Fs|lra].
  pose proof (Rabs_le_inv _ _ Hs) as Hs'.
  set (p := rnd32 (B2R s * 128 + 128)).
  assert (Hp : 0 <= p) by (apply rnd_nonneg; lra).
  assert (Hz : (0 <= ZnearestA p)%Z).
  { apply ZnearestA_ge_Z. lra. }
  exists (ZnearestA p). split; [lia|].
  eapply Rle_trans; [apply (Rabs_tri3 _ p)|].
  apply Rplus_le_compat; [apply ZnearestA_half|].
  unfold p. rewrite (Rmult_comm 128). apply (rnd_err (prec:=24) (emax:=128) 8); [unfold SpecFloat.emin; lia|].
  simpl. apply Rabs_le. lra.
Qed.

(** ** C07 *)
Lemma i24_in_range s : fin s -> Rabs (B2R s) <= 1 -> (-8388607 <= sample_to_i24 s <= 8388607)%Z.
Proof.
  intros Fs Hs. rewrite to_i24_fin; [|exact Fs|lra].
  pose proof (i24_nearest_bound s Hs). lia.
Qed.

(** ** byte meaning *)
From Verif Require Import Spec.Bytes.

Lemma u8_bytes (v : Z) (s : f32) : (0 <= v <= 255)%Z ->
  sample_from_u8_bytes [v] = sample_from_u8 v /\
  sample_to_u8_bytes s = [sample_to_u8 s] /\
  sample_to_u8_bytes (sample_from_u8_bytes [v]) = [v].
Proof.
  intro H. split; [reflexivity|]. split; [reflexivity|].
  change (sample_from_u8_bytes [v]) with (sample_from_u8 v). unfold sample_to_u8_bytes.
  rewrite (u8_round_trip v H). reflexivity.
Qed.

Lemma i16_bytes_round_trip (a b : Z) : is_byte a -> is_byte b ->
  sample_to_i16_bytes (sample_from_i16_bytes [a; b]) = [a; b].
Proof.
  intros Ha Hb. unfold sample_to_i16_bytes, sample_from_i16_bytes.
  change (fdiv (of_Z (from_le_s [a; b])) k16) with (sample_from_i16 (from_le_s [a; b])).
  rewrite i16_round_trip by (apply from_le_s2_range; assumption).
  apply le2_bytes_inv; assumption.
Qed.

Lemma le_value_2 a b : le_value [a; b] = (a + 256 * b)%Z.
Proof. unfold le_value. cbn [length seq combine map fold_right]. change (256 ^ Z.of_nat 0)%Z with 1%Z. change (256 ^ Z.of_nat 1)%Z with 256%Z. lia. Qed.
Lemma le_value_3 a b c : le_value [a; b; c] = (a + 256 * b + 65536 * c)%Z.
Proof. unfold le_value. cbn [length seq combine map fold_right]. change (256 ^ Z.of_nat 0)%Z with 1%Z. change (256 ^ Z.of_nat 1)%Z with 256%Z. change (256 ^ Z.of_nat 2)%Z with 65536%Z. lia. Qed.

Lemma denotes_to_le_2 v : (-32768 <= v <= 32767)%Z -> denotes (to_le 2 v) v.
Proof.
  intro Hv. cbn [to_le]. split; [repeat constructor; apply byte_split|].
  cbn [length]. split; [simpl; lia|].
  rewrite le_value_2. exists (- (v / 256 / 256))%Z.
  change (2 ^ (8 * Z.of_nat 2))%Z with 65536%Z.
  pose proof (Z.div_mod v 256 ltac:(lia)). pose proof (Z.div_mod (v/256) 256 ltac:(lia)). lia.
Qed.

Lemma i16_bytes_meaning (s : f32) :
  denotes (sample_to_i16_bytes s) (sample_to_i16 s) /\
  (forall a b v, denotes [a; b] v -> sample_from_i16_bytes [a; b] = sample_from_i16 v).
Proof.
  split.
  - apply denotes_to_le_2. apply (to_int_range (-32768) 32767). lia.
  - intros a b v (Hb & Hr & k & Hk). unfold sample_from_i16_bytes, sample_from_i16.
    rewrite le_value_2 in Hk. cbn [length] in *.
    change (2 ^ (8 * Z.of_nat 2))%Z with 65536%Z in *.
    change (2 ^ (8 * Z.of_nat 2 - 1))%Z with 32768%Z in *.
    inversion Hb as [|x l Ha Hb']; subst. inversion Hb' as [|x l Hbb _]; subst.
    unfold is_byte in *.
    replace (from_le_s [a; b]) with v; [reflexivity|].
    unfold from_le_s. cbn [from_le_u length]. cbv zeta.
    change (2 ^ (8 * Z.of_nat 2))%Z with 65536%Z. change (65536 / 2)%Z with 32768%Z.
    destruct (Z.ltb_spec (a + 256 * (b + 256 * 0)) 32768); lia.
Qed.

Lemma denotes_i24 v : (- 2 ^ 23 <= v < 2 ^ 23)%Z -> denotes (firstn 3 (to_le 4 v)) v.
Proof.
  intro Hv. rewrite to_le_4. cbn [firstn]. split; [repeat constructor; apply byte_split|].
  cbn [length]. split; [simpl in *; lia|].
  rewrite le_value_3. exists (- (v / 256 / 256 / 256))%Z.
  change (2 ^ (8 * Z.of_nat 3))%Z with 16777216%Z.
  pose proof (Z.div_mod v 256 ltac:(lia)). pose proof (Z.div_mod (v/256) 256 ltac:(lia)).
  pose proof (Z.div_mod (v/256/256) 256 ltac:(lia)). lia.
Qed.

Lemma i24_bytes_written v : (- 2 ^ 23 <= v <= 2 ^ 23 - 1)%Z ->
  denotes (sample_to_i24_bytes (sample_from_i24 v)) v.
Proof.
  intro Hv. unfold sample_to_i24_bytes. rewrite (i24_round_trip v Hv). apply denotes_i24. lia.
Qed.

Lemma i24_bytes_negative v : (- 2 ^ 23 <= v < 0)%Z ->
  sample_from_i24_bytes (sample_to_i24_bytes (sample_from_i24 v)) = sample_from_i24 (v + 2 ^ 24)
  /\ 0 < B2R (sample_from_i24 (v + 2 ^ 24)) /\ B2R (sample_from_i24 v) < 0.
Proof.
  intro Hv. split; [|split; [apply from_i24_pos; lia|apply from_i24_neg; lia]].
  rewrite i24_bytes_decode by lia.
  replace (v mod 2 ^ 24)%Z with (v + 2 ^ 24)%Z; [reflexivity|]. apply Z.mod_unique with (-1)%Z; lia.
Qed.

Lemma i24_bytes_read_iff v : (- 2 ^ 23 <= v <= 2 ^ 23 - 1)%Z ->
  (sample_from_i24_bytes (sample_to_i24_bytes (sample_from_i24 v)) = sample_from_i24 v
   <-> (0 <= v)%Z).
Proof.
  intro Hv. split.
  - intro E. destruct (Z_lt_le_dec v 0) as [N|N]; [|exact N]. exfalso.
    destruct (i24_bytes_negative v ltac:(lia)) as (A & B & C). rewrite A in E. rewrite E in B. lra.
  - intro N. rewrite i24_bytes_decode by lia. rewrite Z.mod_small by lia. reflexivity.
Qed.

Lemma i24_bytes_refuted : exists v : Z, (- 2 ^ 23 <= v <= 2 ^ 23 - 1)%Z /\
  sample_from_i24_bytes (sample_to_i24_bytes (sample_from_i24 v)) <> sample_from_i24 v.
Proof.
  exists (-1)%Z. split; [lia|]. intro E. apply i24_bytes_read_iff in E; lia.
Qed.

Lemma acc_i16' s : fin s -> Rabs (B2R s) <= 1 ->
  Rabs (IZR (sample_to_i16 s) - 32767 * B2R s) <= / 2 + / 1024.
Proof. intros F H. pose proof (acc_i16 s F H) as A. simpl bpow in A. lra. Qed.
Lemma acc_u8' s : fin s -> Rabs (B2R s) <= 1 ->
  exists k, sample_to_u8 s = Z.min 255 k /\ Rabs (IZR k - (128 * B2R s + 128)) <= / 2 + / 131072.
Proof.
  intros F H. destruct (acc_u8 s F H) as (k & A & B). exists k. split; [exact A|]. simpl bpow in B. lra.
Qed.

Lemma encoders_monotone (s t : f32) : fle s t = true ->
  (sample_to_u8 s <= sample_to_u8 t)%Z /\ (sample_to_i16 s <= sample_to_i16 t)%Z /\
  (sample_to_i24 s <= sample_to_i24 t)%Z.
Proof. intro H. auto using mono_u8, mono_i16, mono_i24. Qed.

Lemma encoders_range (s : f32) :
  (0 <= sample_to_u8 s <= 255)%Z /\ (-32768 <= sample_to_i16 s <= 32767)%Z.
Proof. split; apply to_int_range; lia. Qed.

Lemma saturation (s : f32) :
  (fge s (of_Z 1) = true -> sample_to_u8 s = 255%Z) /\
  (fle s (of_Z (-1)) = true -> sample_to_u8 s = 0%Z) /\
  (fge s (of_Z 1) = true -> sample_to_i16 s = 32767%Z) /\
  (fle s (of_Z (-2)) = true -> sample_to_i16 s = (-32768)%Z).
Proof.
  destruct (encoders_range s) as [A B].
  repeat split; intro H.
  - apply mono_u8 in H. change (sample_to_u8 (of_Z 1)) with 255%Z in H. lia.
  - apply mono_u8 in H. change (sample_to_u8 (of_Z (-1))) with 0%Z in H. lia.
  - apply mono_i16 in H. change (sample_to_i16 (of_Z 1)) with 32767%Z in H. lia.
  - apply mono_i16 in H. change (sample_to_i16 (of_Z (-2))) with (-32768)%Z in H. lia.
Qed.

Lemma encode_nan : sample_to_u8 B754_nan = 0%Z /\ sample_to_i16 B754_nan = 0%Z /\
  sample_to_i24 B754_nan = 0%Z /\ sample_from_u8 0 = fneg f1 /\ sample_to_u8 f0 = 128%Z.
Proof.
  split; [reflexivity|]. split; [reflexivity|]. split; [reflexivity|].
  split; [|vm_compute; reflexivity]. apply B2SF_inj. vm_compute. reflexivity.
Qed.

Lemma i24_in_range_bytes (s : f32) : fin s -> Rabs (B2R s) <= 1 ->
  (- (2 ^ 23 - 1) <= sample_to_i24 s <= 2 ^ 23 - 1)%Z /\
  denotes (sample_to_i24_bytes s) (sample_to_i24 s).
Proof.
  intros F H. pose proof (i24_in_range s F H) as A. split; [lia|]. apply denotes_i24. lia.
Qed.

Lemma to_le_4_mod v k : firstn 3 (to_le 4 (v + k * 2 ^ 24)) = firstn 3 (to_le 4 v).
Proof.
  rewrite !to_le_4. cbn [firstn].
  replace (v + k * 2 ^ 24)%Z with (v + (k * 65536) * 256)%Z by lia.
  rewrite Z.mod_add by lia. rewrite !Z.div_add by lia.
  replace (v / 256 + k * 65536)%Z with (v / 256 + (k * 256) * 256)%Z by lia.
  rewrite Z.mod_add by lia. rewrite !Z.div_add by lia.
  rewrite Z.mod_add by lia. reflexivity.
Qed.

Lemma i24_wraps (s : f32) : fin s -> 3/2 <= B2R s <= 199/100 ->
  exists v : Z, denotes (sample_to_i24_bytes s) v /\ (v < 0)%Z.
Proof.
  intros F H.
  assert (E : (8388608 <= sample_to_i24 s < 16777216)%Z).
  { rewrite to_i24_fin; [|exact F|apply Rabs_le; lra].
    set (p := rnd32 (B2R s * 8388607)).
    assert (8388608 <= p).
    { apply rnd_ge_fmt; [apply (fmt32_Z 8388608); lia|lra]. }
    assert (p <= 16777000).
    { apply rnd_le_fmt; [apply (fmt32_Z 16777000); lia|lra]. }
    assert (8388608 <= ZnearestA p)%Z by (apply ZnearestA_ge_Z; lra).
    assert (ZnearestA p <= 16777000)%Z by (apply ZnearestA_le_Z; lra). lia. }
  exists (sample_to_i24 s - 2 ^ 24)%Z. split; [|lia].
  unfold sample_to_i24_bytes.
  replace (sample_to_i24 s) with ((sample_to_i24 s - 2 ^ 24) + 1 * 2 ^ 24)%Z at 1 by lia.
  rewrite to_le_4_mod. apply denotes_i24. lia.
Qed.

Lemma i24_saturation_refuted : exists (s : f32) (v : Z),
  fin s /\ 0 < B2R s /\ (2 ^ 23 <= sample_to_i24 s)%Z /\
  denotes (sample_to_i24_bytes s) v /\ (v < 0)%Z.
Proof.
  destruct (B2R_of_SF (lit 7 (-2) : f32) false 14680064 (-23)) as [A B]; [vm_compute; reflexivity|].
  destruct (i24_wraps (lit 7 (-2)) A) as (v & D & N).
  { rewrite B. simpl. lra. }
  exists (lit 7 (-2)), v. split; [exact A|]. split; [rewrite B; simpl; lra|].
  split; [vm_compute; congruence|]. split; assumption.
Qed.
