(** * HighPass with a constant input: the feed-forward part is only a rounding residue *)
From Coq Require Import ZArith List Bool Reals Lra Lia Psatz.
From Flocq Require Import Core.Core IEEE754.BinarySingleNaN Sterbenz.
From Verif Require Import Model.Floats Model.Modifiers Model.Filters Spec.Libm Proof.FloatFacts Proof.SampleFormatP Proof.FormatsP
  Proof.GenericP Proof.GeneratorsP Proof.GeneratorsP4 Proof.FiltersP Proof.HighPassP Proof.FiltersP2 Proof.NearP Proof.FilterF32P Proof.FilterF32P2.
Import ListNotations.
Local Open Scope R_scope.

Lemma ster_pos (s p : f32) : fin s -> fin p -> B2R p / 2 <= - B2R s <= 2 * B2R p -> fin (fadd s p) /\ B2R (fadd s p) = B2R s + B2R p.
Proof.
  intros Fs Fp H.
  assert (F : generic_format radix2 (SpecFloat.fexp 24 128) (B2R s + B2R p)).
  { replace (B2R s + B2R p) with (B2R p - - B2R s) by ring.
    apply (sterbenz radix2 (SpecFloat.fexp 24 128)); [apply fmt_B2R|apply generic_format_opp, fmt_B2R|lra]. }
  assert (R : rnd32 (B2R s + B2R p) = B2R s + B2R p) by (apply round_generic; [typeclasses eauto|exact F]).
  destruct (fadd_ok s p Fs Fp) as [A B].
  - rewrite R. apply Rle_lt_trans with (Rabs (B2R p)); [|apply abs_B2R_lt_emax]. rewrite (Rabs_pos_eq (B2R p)) by lra. apply Rabs_le. lra.
  - rewrite R in B. split; assumption.
Qed.
Lemma ster (s p : f32) : fin s -> fin p -> (B2R p / 2 <= - B2R s <= 2 * B2R p \/ - B2R p / 2 <= B2R s <= 2 * - B2R p) ->
  fin (fadd s p) /\ B2R (fadd s p) = B2R s + B2R p.
Proof.
  intros Fs Fp [H|H]; [apply ster_pos; assumption|].
  assert (F : generic_format radix2 (SpecFloat.fexp 24 128) (B2R s + B2R p)).
  { replace (B2R s + B2R p) with (B2R s - - B2R p) by ring.
    apply (sterbenz radix2 (SpecFloat.fexp 24 128)); [apply fmt_B2R|apply generic_format_opp, fmt_B2R|lra]. }
  assert (R : rnd32 (B2R s + B2R p) = B2R s + B2R p) by (apply round_generic; [typeclasses eauto|exact F]).
  destruct (fadd_ok s p Fs Fp) as [A B].
  - rewrite R. apply Rle_lt_trans with (Rabs (B2R p)); [|apply abs_B2R_lt_emax]. rewrite (Rabs_left1 (B2R p)) by lra. apply Rabs_le. lra.
  - rewrite R in B. split; assumption.
Qed.

Definition ep : R := / 1000000.
Lemma residue (p0 p2 : f32) (u : R) : fin p0 -> fin p2 -> bpow radix2 (-110) <= Rabs u <= bpow radix2 110 ->
  Rabs (B2R p0 - u) <= ep * Rabs u -> Rabs (B2R p2 - 3 * u) <= ep * (3 * Rabs u) ->
  let ff := fadd (fadd (fadd p0 (fneg p2)) p2) (fneg p0) in fin ff /\ Rabs (B2R ff) <= 3 * bpow radix2 (-24) * Rabs u.
Proof.
  intros F0 F2 U E0 E2. unfold ep in *.
  assert (FN : forall x : f32, fin x -> fin (fneg x)) by (intros x Fx; rewrite fneg_fin; exact Fx).
  pose proof (Rabs_pos u) as UP. pose proof (bpow_gt_0 radix2 (-110)) as BP.
  set (v := B2R p0 - B2R p2).
  assert (V : Rabs (v + 2 * u) <= / 100000 * Rabs u).
  { unfold v. replace (B2R p0 - B2R p2 + 2 * u) with ((B2R p0 - u) - (B2R p2 - 3 * u)) by ring.
    eapply Rle_trans; [apply Rabs_triang|]. rewrite Rabs_Ropp. lra. }
  assert (VU : Rabs v <= 201 / 100 * Rabs u /\ Rabs u <= Rabs v).
  { destruct (Rcase_abs u) as [N|N]; [rewrite (Rabs_left u) in * by lra|rewrite (Rabs_right u) in * by lra];
    apply Rabs_le_inv in V; unfold Rabs; destruct (Rcase_abs v); lra. }
  assert (OV : Rabs (rnd32 v) < bpow radix2 128).
  { apply fin32. apply Rle_trans with (1 := proj1 VU). apply Rle_trans with (bpow radix2 2 * bpow radix2 110); [|rewrite <- bpow_plus; apply bpow_le; lia].
    change (bpow radix2 2) with 4. lra. }
  destruct (fadd_ok p0 (fneg p2) F0 (FN p2 F2)) as [F1 V1]; [rewrite fneg_R; exact OV|]. rewrite fneg_R in V1. fold (v) in V1. change (B2R p0 + - B2R p2) with v in V1.
  destruct (rnd_rel (prec:=24) (emax:=128) v) as (d & D & ED).
  { apply Rle_trans with (2 := proj2 VU). apply Rle_trans with (2 := proj1 U). apply bpow_le. unfold SpecFloat.emin. lia. }
  rewrite ED in V1. set (s1 := fadd p0 (fneg p2)) in *. clearbody s1. clear OV.
  change (bpow radix2 (-24)) with (/ 16777216) in *. change (bpow radix2 (- (24))) with (/ 16777216) in D.
  assert (DV : Rabs (v * d) <= / 16777216 * (201 / 100 * Rabs u)).
  { rewrite Rabs_mult, Rmult_comm. apply Rmult_le_compat; [apply Rabs_pos|apply Rabs_pos|exact D|apply VU]. }
  assert (S1 : B2R s1 = B2R p0 - B2R p2 + v * d) by (rewrite V1; unfold v; ring).
  destruct (ster s1 p2 F1 F2) as [G2 W2].
  { rewrite S1. apply Rabs_le_inv in E0. apply Rabs_le_inv in E2. apply Rabs_le_inv in DV.
    destruct (Rcase_abs u) as [N|N]; [rewrite (Rabs_left u) in * by lra|rewrite (Rabs_right u) in * by lra]; lra. }
  set (s2 := fadd s1 p2) in *. clearbody s2.
  assert (S2 : B2R s2 = B2R p0 + v * d) by lra.
  destruct (ster s2 (fneg p0) G2 (FN p0 F0)) as [G3 W3].
  { rewrite fneg_R, S2. apply Rabs_le_inv in E0. apply Rabs_le_inv in DV.
    destruct (Rcase_abs u) as [N|N]; [rewrite (Rabs_left u) in * by lra|rewrite (Rabs_right u) in * by lra]; lra. }
  split; [exact G3|]. rewrite W3, fneg_R, S2. replace (B2R p0 + v * d + - B2R p0) with (v * d) by ring. lra.
Qed.

(** the products *)
Lemma prod32 (a c : f32) (ah : R) : fin a -> fin c -> acc a ah -> 0 < ah <= 4 -> / 256 <= ah -> bpow radix2 (-100) <= Rabs (B2R c) <= bpow radix2 100 ->
  fin (fmul a c) /\ Rabs (B2R (fmul a c) - ah * B2R c) <= / 5000000 * (ah * Rabs (B2R c)).
Proof.
  intros Fa Fc [_ EA] A1 A2 C. rewrite (Rabs_pos_eq ah) in EA by lra.
  assert (CP : 0 < Rabs (B2R c)) by (pose proof (bpow_gt_0 radix2 (-100)); lra).
  assert (EP : Rabs (B2R a * B2R c - ah * B2R c) <= w32 * (ah * Rabs (B2R c))).
  { replace (B2R a * B2R c - ah * B2R c) with ((B2R a - ah) * B2R c) by ring. rewrite Rabs_mult, <- Rmult_assoc. apply Rmult_le_compat_r; lra. }
  assert (HP : 0 < ah * Rabs (B2R c)) by (apply Rmult_lt_0_compat; lra).
  assert (NP : Rabs (B2R a * B2R c) <= 2 * (ah * Rabs (B2R c)) /\ / 2 * (ah * Rabs (B2R c)) <= Rabs (B2R a * B2R c)).
  { assert (X : Rabs (ah * B2R c) = ah * Rabs (B2R c)) by (rewrite Rabs_mult, (Rabs_pos_eq ah) by lra; reflexivity).
    pose proof (Rabs_triang_inv (B2R a * B2R c) (ah * B2R c)). pose proof (Rabs_triang_inv (ah * B2R c) (B2R a * B2R c)).
    rewrite Rabs_minus_sym in EP. pose proof EP as EP'. rewrite Rabs_minus_sym in EP. unfold w32 in *. lra. }
  destruct (fmul_ok a c Fa Fc) as [F E].
  { apply fin32. apply Rle_trans with (1 := proj1 NP). apply Rle_trans with (8 * bpow radix2 100).
    - assert (ah * Rabs (B2R c) <= 4 * bpow radix2 100) by (apply Rmult_le_compat; lra). lra.
    - change 8 with (bpow radix2 3). rewrite <- bpow_plus. apply bpow_le. lia. }
  split; [exact F|]. rewrite E.
  destruct (rnd_rel (prec:=24) (emax:=128) (B2R a * B2R c)) as (d & D & ED).
  { apply Rle_trans with (2 := proj2 NP). apply Rle_trans with (bpow radix2 (-9) * bpow radix2 (-100)); [rewrite <- bpow_plus; apply bpow_le; unfold SpecFloat.emin; lia|].
    change (bpow radix2 (-9)) with (/ 512). assert (/ 256 * bpow radix2 (-100) <= ah * Rabs (B2R c)); [|lra].
    apply Rmult_le_compat; [lra|apply bpow_ge_0|lra|lra]. }
  rewrite ED. replace (B2R a * B2R c * (1 + d) - ah * B2R c) with ((B2R a * B2R c - ah * B2R c) + d * (B2R a * B2R c)) by ring.
  eapply Rle_trans; [apply Rabs_triang|]. rewrite (Rabs_mult d). change (bpow radix2 (- (24))) with (/ 16777216) in D.
  assert (Rabs d * Rabs (B2R a * B2R c) <= / 16777216 * (101 / 100 * (ah * Rabs (B2R c)))).
  { apply Rmult_le_compat; [apply Rabs_pos|apply Rabs_pos|exact D|].
    replace (B2R a * B2R c) with ((B2R a * B2R c - ah * B2R c) + ah * B2R c) by ring. eapply Rle_trans; [apply Rabs_triang|].
    rewrite (Rabs_mult ah), (Rabs_pos_eq ah) by lra. unfold w32 in EP. lra. }
  unfold w32 in EP. lra.
Qed.
Definition ff_of (c : coeffs f32) (x : f32) : f32 := fadd (fadd (fadd (fmul (c0 c) x) (fmul (c1 c) x)) (fmul (Filters.c2 c) x)) (fmul (c3 c) x).

Lemma hp_ff_gen {S} (add mul : S -> S -> S) (k : hpc S) x y : 
  fst (hp_step add mul k (mkH x x x, y) x) =
  add (add (add (add (add (add (mul (c0 (hc_a k)) x) (mul (c1 (hc_a k)) x)) (mul (Filters.c2 (hc_a k)) x)) (mul (c3 (hc_a k)) x)) (mul (hc_b1 k) (h0 y))) (mul (hc_b2 k) (h1 y))) (mul (hc_b3 k) (h2 y)).
Proof. reflexivity. Qed.
Lemma hp_process_fst s x : fst (hp_process s x) = fst (hp_step fadd fmul (hp_coeff s) (hp_hist s) x).
Proof. unfold hp_process. destruct hp_step. reflexivity. Qed.
Lemma params_ok' fc r : fle (lit 1 (-10)) (clamp_fc fc) = true ->
  fc_ok (clamp_fc fc) /\ (fin (clamp_r r) /\ 0 <= B2R (clamp_r r) <= 1).
Proof.
  intro H. destruct (in_params_clamp fc r) as (A & _ & B & C & _). set (f := clamp_fc fc) in *. set (q := clamp_r r) in *.
  assert (V1 : fin (lit 1 (-10) : f64) /\ B2R (lit 1 (-10) : f64) = 4503599627370496 * bpow radix2 (-62)).
  { destruct (lit 1 (-10) : f64) as [| | |s m' e' Hb] eqn:E; assert (Q : B2SF (lit 1 (-10) : f64) = SpecFloat.S754_finite false 4503599627370496 (-62)) by (vm_compute; reflexivity);
      rewrite E in Q; try discriminate Q. injection Q as -> -> ->. split; reflexivity. }
  assert (V2 : fin (of_Z 24000 : f64) /\ B2R (of_Z 24000 : f64) = 24000) by (apply of_Z64; lia).
  assert (V3 : fin (of_Z 1 : f64) /\ B2R (of_Z 1 : f64) = 1) by (apply of_Z64; lia).
  assert (Ff : fin f). { generalize dependent f. intros f H1 H2. destruct f as [ | [|] | | ]; try reflexivity; revert H1 H2; vm_compute; discriminate. }
  assert (Fq : fin q). { generalize dependent q. intros q H1 H2. destruct q as [ | [|] | | ]; try reflexivity; revert H1 H2; vm_compute; discriminate. }
  apply fle_true in H; [|apply V1|exact Ff]. apply fle_true in A; [|exact Ff|apply V2]. apply fle_true in B; [|reflexivity|exact Fq]. apply fle_true in C; [|exact Fq|apply V3].
  destruct V1 as [_ V1]. destruct V2 as [_ V2]. destruct V3 as [_ V3]. rewrite V1 in H. rewrite V2 in A. rewrite V3 in C. change (B2R (f0 : f64)) with 0 in B.
  change (bpow radix2 (-62)) with (/ 4611686018427387904) in H.
  split; split; lra || assumption.
Qed.
Lemma ff_residue m fc r (c : f32) : cos_accurate m -> pow_int_accurate m -> fc_ok fc -> fin r -> 0 <= B2R r <= 1 ->
  bpow radix2 (-100) <= Rabs (B2R c) <= bpow radix2 100 -> fin c ->
  let d := ff_of (hc_a (hp_coeffs (A64 m) to32 fc r)) c in fin d /\ Rabs (B2R d) <= 3 * bpow radix2 (-24) * Rabs (B2R c).
Proof.
  intros HC HP OK Fr Br HX FC. pose proof (k_near m HC r Br _ (hp_theta_ok m r Fr Br)) as KN. pose proof (d_of_range (B2R r) Br) as DR.
  pose proof (over_g m HP fc OK _ _ KN DR 1 ltac:(lia)) as A0. pose proof (over_g m HP fc OK _ _ KN DR 3 ltac:(lia)) as A2.
  pose proof (g_rng m fc OK _ DR) as G.
  destruct (hp_antisym m fc r) as [E3 E1]. unfold ff_of. rewrite E3, E1, !fmul_neg_l.
  unfold hp_coeffs. cbn [hc_a c0 Filters.c2].
  change (hp_a0 (A64 m) (bw_k (A64 m) (hp_theta (A64 m) r)) (bw_t (A64 m) fc)) with (fdiv (of_Z 1) (bw_g (A64 m) (bw_k (A64 m) (hp_theta (A64 m) r)) (bw_t (A64 m) fc))).
  change (hp_a2 (A64 m) (bw_k (A64 m) (hp_theta (A64 m) r)) (bw_t (A64 m) fc)) with (fdiv (of_Z 3) (bw_g (A64 m) (bw_k (A64 m) (hp_theta (A64 m) r)) (bw_t (A64 m) fc))).
  clear E3 E1. generalize dependent (to32 (fdiv (of_Z 1) (bw_g (A64 m) (bw_k (A64 m) (hp_theta (A64 m) r)) (bw_t (A64 m) fc)))).
  generalize dependent (to32 (fdiv (of_Z 3) (bw_g (A64 m) (bw_k (A64 m) (hp_theta (A64 m) r)) (bw_t (A64 m) fc)))).
  intros a2 A2 a0 A0.
  match type of G with _ <= ?gg <= _ => set (g := gg) in * end. clearbody g.
  assert (G3 : 0 < 3 / g <= 4 /\ / 256 <= 3 / g /\ 0 < 1 / g <= 4 /\ / 256 <= 1 / g).
  { assert (I : / 128 <= / g <= 1) by (split; [apply Rinv_le; lra|rewrite <- Rinv_1; apply Rinv_le; lra]). unfold Rdiv. lra. }
  destruct G3 as (G1 & G2 & G3 & G4).
  destruct (prod32 a0 c (1 / g) (proj1 A0) FC (acc_pos _ _ A0) G3 G4 HX) as [F0 P0].
  destruct (prod32 a2 c (3 / g) (proj1 A2) FC (acc_pos _ _ A2) G1 G2 HX) as [F2 P2].
  assert (CP := Rabs_pos (B2R c)).
  set (u := 1 / g * B2R c). assert (UA : Rabs u = 1 / g * Rabs (B2R c)) by (unfold u; rewrite Rabs_mult, (Rabs_pos_eq (1 / g)) by lra; reflexivity).
  assert (GI : / 128 <= 1 / g <= 1) by (unfold Rdiv; rewrite Rmult_1_l; split; [apply Rinv_le; lra|rewrite <- Rinv_1; apply Rinv_le; lra]).
  destruct (residue (fmul a0 c) (fmul a2 c) u F0 F2) as [FF BF].
  - rewrite UA. split.
    + apply Rle_trans with (bpow radix2 (-7) * bpow radix2 (-100)); [rewrite <- bpow_plus; apply bpow_le; lia|].
      change (bpow radix2 (-7)) with (/ 128). apply Rmult_le_compat; [lra|apply bpow_ge_0|lra|lra].
    + apply Rle_trans with (1 * bpow radix2 100); [apply Rmult_le_compat; lra|]. rewrite Rmult_1_l. apply bpow_le. lia.
  - fold u in P0. rewrite UA. assert (0 <= 1 / g * Rabs (B2R c)) by (apply Rmult_le_pos; lra). unfold ep. lra.
  - replace (3 * u) with (3 / g * B2R c) by (unfold u; field; lra). rewrite UA. apply Rle_trans with (1 := P2).
    replace (3 / g * Rabs (B2R c)) with (3 * (1 / g * Rabs (B2R c))) by (field; lra). assert (0 <= 1 / g * Rabs (B2R c)) by (apply Rmult_le_pos; lra). unfold ep. lra.
  - cbv zeta. split; [exact FF|]. apply Rle_trans with (1 := BF). rewrite UA. apply Rmult_le_compat_l; [pose proof (bpow_ge_0 radix2 (-24)); lra|].
    rewrite <- (Rmult_1_l (Rabs (B2R c))) at 2. apply Rmult_le_compat_r; lra.
Qed.
Theorem hp_dc_residue m fc r (c : f32) : cos_accurate m -> pow_int_accurate m ->
  let k := hp_coeff (hp_new m fc r) in fle (lit 1 (-10)) (hp_fc (hp_new m fc r)) = true ->
  fin c -> bpow radix2 (-100) <= Rabs (B2R c) <= bpow radix2 100 ->
  exists d : f32, fin d /\ Rabs (B2R d) <= 3 * bpow radix2 (-24) * Rabs (B2R c) /\
  forall s y1 y2 y3, hp_coeff s = k -> hp_hist s = (mkH c c c, mkH y1 y2 y3) ->
    fst (hp_process s c) = fadd (fadd (fadd d (fmul (hc_b1 k) y1)) (fmul (hc_b2 k) y2)) (fmul (hc_b3 k) y3).
Proof.
  intros HC HP k HF FC HX. destruct (params_ok' fc r HF) as (OK & Fr & Br).
  exists (ff_of (hc_a k) c). destruct (ff_residue m _ _ c HC HP OK Fr Br HX FC) as [A B]. split; [exact A|]. split; [exact B|].
  intros s y1 y2 y3 EK EH. rewrite hp_process_fst, EK, EH, hp_ff_gen. unfold ff_of. cbn [h0 h1 h2]. reflexivity.
Qed.
