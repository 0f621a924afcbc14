(** * C99: the envelope follower follows *)

From Coq Require Import ZArith List Bool Reals Lra Lia.
From Flocq Require Import Core.Core IEEE754.BinarySingleNaN.
From Verif Require Import Model.Floats Model.Modifiers Model.Filters Spec.Libm Spec.Follower
  Proof.FloatFacts Proof.SampleFormatP Proof.WavP Proof.EnvelopeP Proof.FollowP.
Import ListNotations.
Local Open Scope R_scope.

(** ** C99 *)
(** after any bounded history, once the magnitude of the input stays in [lo, hi] so does the envelope, up to what is left
    of the past (which decays at the rate of [upper] from below and of [lower] from above) and the rounding errors *)
Theorem C99_follows : forall (m : libm) (lower upper : f32), tan32_accurate m ->
  is_finite lower = true -> 1 <= B2R lower <= 10000 -> is_finite upper = true -> 1 <= B2R upper <= 10000 ->
  exists thu thd : R, / 32768 <= thu <= 1 /\ / 32768 <= thd <= 1 /\
    Rabs (thu - tan (PI * B2R upper / 48000)) <= bpow radix2 (-19) /\
    Rabs (thd - tan (PI * B2R lower / 48000)) <= bpow radix2 (-19) /\
    forall (Y lo hi : R) (before xs : list f32) i, bpow radix2 (-100) <= Y <= bpow radix2 99 -> 0 <= lo -> hi <= Y ->
      (forall x, In x before -> is_finite x = true /\ Rabs (B2R x) <= Y) -> lo <= Rabs (B2R (last before f0)) <= hi ->
      (forall x, In x xs -> is_finite x = true /\ lo <= Rabs (B2R x) <= hi) -> (i < length xs)%nat ->
      let y : f32 := nth (length before + i) (fst (run (env_process num32) (env_new m lower upper) (before ++ xs))) f0 in
      is_finite y = true /\ lo - kept thu ^ (S i) * lo - Y * bpow radix2 (-19) / thu <= B2R y
        <= hi + kept thd ^ (S i) * (2 * Y) + Y * bpow radix2 (-19) / thd.
Proof. exact follower. Qed.
(** in exact arithmetic, from any state *)
Theorem C99_follows_exact : forall (thu thd lo hi : R) (xs : list R) (x1 y1 : R) (i : nat), 0 < thu <= 1 -> 0 < thd <= 1 ->
  lo <= Rabs x1 <= hi -> (forall x, In x xs -> lo <= Rabs x <= hi) -> (i < length xs)%nat ->
  let y := nth i (fst (run (env_process numR) (env_at numR 1 thu thd x1 y1) xs)) 0 in
  short lo y <= kept thu ^ (S i) * short lo y1 /\ excess hi y <= kept thd ^ (S i) * excess hi y1.
Proof. intros thu thd lo hi xs x1 y1 i Hu Hd. exact (follows_exact thu thd lo hi Hu Hd xs x1 y1 i). Qed.
(** a constant is approached geometrically, from one side *)
Theorem C99_constant_exact : forall (thu thd x y1 : R), 0 < thu <= 1 -> 0 < thd <= 1 -> forall n i, (i < n)%nat ->
  nth i (fst (run (env_process numR) (env_at numR 1 thu thd x y1) (repeat x n))) 0
  = Rabs x + (if Rlt_bool y1 (Rabs x) then kept thu else kept thd) ^ (S i) * (y1 - Rabs x).
Proof. exact constant_exact. Qed.
(** relied on: the envelope does not fall while the input is above it *)
Theorem C99_rises_refuted : forall (thu thd x y1 : R), 0 < thu <= 1 -> 0 < y1 < Rabs x -> Rabs x < 2 * y1 ->
  fst (env_process numR (env_at numR 1 thu thd 0 y1) x) < y1.
Proof. exact falls_while_rising. Qed.

Example C99_ex : kept (/ 3) = / 2 /\
  nth 1 (fst (run (env_process numR) (env_at numR 1 (/ 3) (/ 3) 1 0) (repeat 1 5))) 0 = 3 / 4.
Proof.
  assert (K : kept (/ 3) = / 2) by (unfold kept; field). split; [exact K|].
  rewrite C99_constant_exact by (lra || lia). rewrite Rlt_bool_true by (rewrite Rabs_R1; lra). rewrite Rabs_R1, K. simpl. lra.
Qed.
Example C99_ex32 : map B2SF (fst (run (env_process num32) (env_of_theta num32 (of_Z 1) (of_Z 1) (lit 1 (-1))) [of_Z 3 : f32; of_Z (-3); of_Z 0; of_Z 0]))
  = map B2SF [lit 3 (-1) : f32; of_Z 3; of_Z 2; lit 11184811 (-24)].
Proof. vm_compute. reflexivity. Qed.
