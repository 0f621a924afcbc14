(** * Proofs: the speed of a resampler between two powers of two *)
From Coq Require Import ZArith List Bool Reals Lra Lia Psatz.
From Flocq Require Import Core.Core IEEE754.BinarySingleNaN.
From Verif Require Import Model.Floats Model.Mono Model.Wav Model.Resampler Spec.Playback Spec.Response Spec.Pitch Spec.Detune
  Proof.FloatFacts Proof.SampleFormatP Proof.FormatsP Proof.WavP Proof.ResamplerP Proof.ResamplerP2 Proof.ResamplerP3 Proof.PlayP Proof.AdsrP2 Proof.PitchP.
Import ListNotations.
Local Open Scope R_scope.

Lemma grid_fmt K j : (-100 <= j <= 100)%Z -> Rabs (IZR K * bpow radix2 (j - 23)) <= bpow radix2 (j + 1) -> fmt32 (IZR K * bpow radix2 (j - 23)).
Proof.
  intros Hj H. assert (B : (Z.abs K <= 2 ^ 24)%Z).
  { apply le_IZR. rewrite abs_IZR, IZR_pow2 by lia. rewrite Rabs_mult, (Rabs_pos_eq (bpow _ _)) in H by apply bpow_ge_0.
    apply Rmult_le_reg_r with (bpow radix2 (j - 23)); [apply bpow_gt_0|]. rewrite <- bpow_plus. replace (24 + (j - 23))%Z with (j + 1)%Z by ring. exact H. }
  destruct (Z.eq_dec (Z.abs K) (2 ^ 24)) as [E|N].
  - assert (Ek : IZR K * bpow radix2 (j - 23) = bpow radix2 (j + 1) \/ IZR K * bpow radix2 (j - 23) = - bpow radix2 (j + 1)).
    { assert (K = 2 ^ 24 \/ K = - 2 ^ 24)%Z as [->| ->] by lia; [left|right]; rewrite ?opp_IZR, IZR_pow2 by lia;
        [|rewrite <- Ropp_mult_distr_l; f_equal]; rewrite <- bpow_plus; f_equal; ring. }
    destruct Ek as [-> | ->]; [|apply (fmt_opp (prec:=24) (emax:=128))]; apply (fmt_bpow (prec:=24) (emax:=128)); unfold SpecFloat.emin; lia.
  - apply (fmt_FLT (prec:=24) (emax:=128)); [lia|unfold SpecFloat.emin; lia].
Qed.

(** ** ties *)
Definition half (z : R) : Prop := z - IZR (Zfloor z) = / 2.
Lemma floor_shift k z : Zfloor (IZR k + z) = (k + Zfloor z)%Z.
Proof.
  apply Zfloor_imp. rewrite !plus_IZR. pose proof (Zfloor_lb z). pose proof (Zfloor_ub z). lra.
Qed.
Lemma half_shift k z : half z -> half (IZR k + z).
Proof. unfold half. intro H. rewrite floor_shift, plus_IZR. lra. Qed.
Lemma half_nearest z : half z -> ZnearestE z = if Z.even (Zfloor z) then Zfloor z else (Zfloor z + 1)%Z.
Proof.
  unfold half. intro H. unfold Znearest. rewrite H. rewrite Rcompare_Eq by reflexivity.
  rewrite Zceil_floor_neq by lra. destruct (Z.even (Zfloor z)); reflexivity.
Qed.
Lemma half_even z : half z -> Z.even (ZnearestE z) = true.
Proof.
  intro H. rewrite (half_nearest z H). destruct (Z.even (Zfloor z)) eqn:E; [exact E|]. rewrite Z.even_add, E. reflexivity.
Qed.
Lemma not_half z : ~ half z -> Rabs (z - IZR (ZnearestE z)) < / 2.
Proof.
  unfold half. intro H. pose proof (Zfloor_lb z) as A. pose proof (Zfloor_ub z) as B. unfold Znearest.
  destruct (Rcompare_spec (z - IZR (Zfloor z)) (/ 2)) as [C|C|C]; [|contradiction|].
  - apply Rabs_lt. lra.
  - rewrite Zceil_floor_neq by lra. rewrite plus_IZR. apply Rabs_lt. lra.
Qed.
Lemma shift_even k z : half z -> ZnearestE (IZR (2 * k) + z) = (2 * k + ZnearestE z)%Z.
Proof.
  intro H. rewrite (half_nearest _ (half_shift (2 * k) z H)), (half_nearest z H), floor_shift.
  rewrite Z.even_add, Z.even_mul. change (Z.even 2) with true. cbn [orb eqb]. destruct (Z.even (Zfloor z)); cbn [eqb]; lia.
Qed.
Lemma clear_or_half j s : clear_step j s \/ half (s * bpow radix2 (23 - j)).
Proof.
  destruct (Req_dec (s * bpow radix2 (23 - j) - IZR (Zfloor (s * bpow radix2 (23 - j)))) (/ 2)) as [H|H]; [right; exact H|left].
  apply not_half in H. unfold clear_step, octave_step. set (z := s * bpow radix2 (23 - j)) in *.
  assert (Es : s = z * bpow radix2 (j - 23)).
  { unfold z. rewrite Rmult_assoc, <- bpow_plus. replace (23 - j + (j - 23))%Z with 0%Z by ring. simpl. ring. }
  rewrite Es at 1. rewrite <- Rmult_minus_distr_r, Rabs_mult, (Rabs_pos_eq (bpow _ _)) by apply bpow_ge_0.
  replace (bpow radix2 (j - 24)) with (/ 2 * bpow radix2 (j - 23)).
  - apply Rmult_lt_compat_r; [apply bpow_gt_0|exact H].
  - replace (j - 23)%Z with (j - 24 + 1)%Z by ring. rewrite bpow_double. lra.
Qed.
Lemma rnd_octave x j : (-100 <= j <= 100)%Z -> bpow radix2 j <= x <= bpow radix2 (j + 1) ->
  rnd32 x = IZR (ZnearestE (x * bpow radix2 (23 - j))) * bpow radix2 (j - 23).
Proof.
  intros Hj [L U]. pose proof (bpow_gt_0 radix2 j) as J0. destruct (Req_dec x (bpow radix2 (j + 1))) as [->|N].
  - rewrite <- bpow_plus. replace (j + 1 + (23 - j))%Z with 24%Z by ring.
    change (bpow radix2 24) with (IZR 16777216). rewrite (@Zrnd_IZR ZnearestE _).
    rewrite round_generic; [|typeclasses eauto|apply (fmt_bpow (prec:=24) (emax:=128)); unfold SpecFloat.emin; lia].
    change (IZR 16777216) with (bpow radix2 24). rewrite <- bpow_plus. f_equal. ring.
  - assert (M : mag radix2 x = (j + 1)%Z :> Z).
    { apply mag_unique_pos. replace (j + 1 - 1)%Z with j by ring. lra. }
    assert (Ce : cexp radix2 fexp32 x = (j - 23)%Z).
    { unfold cexp. rewrite M. unfold SpecFloat.fexp, SpecFloat.emin. lia. }
    unfold round, F2R. cbn [Fnum Fexp]. unfold scaled_mantissa. rewrite Ce. replace (- (j - 23))%Z with (23 - j)%Z by ring. reflexivity.
Qed.

Lemma octave_nonneg j s : 0 <= s -> 0 <= octave_step j s.
Proof.
  intro Hs. unfold octave_step. apply Rmult_le_pos; [|apply bpow_ge_0]. apply IZR_le.
  rewrite <- (@Zrnd_IZR ZnearestE _ 0). apply Zrnd_le; [typeclasses eauto|]. apply Rmult_le_pos; [exact Hs|apply bpow_ge_0].
Qed.

Lemma next_clear p s j : (-100 <= j <= 100)%Z -> fmt32 p -> bpow radix2 j <= p -> 0 <= s -> clear_step j s ->
  p + octave_step j s <= bpow radix2 (j + 1) -> rnd32 (p + s) = p + octave_step j s.
Proof.
  intros Hj Fp Lp Hs Cl Up. unfold clear_step in Cl. set (a := octave_step j s) in *.
  pose proof (bpow_gt_0 radix2 j) as J0. pose proof (bpow_gt_0 radix2 (j - 23)) as U0.
  assert (Eu : bpow radix2 (j - 23) = 2 * bpow radix2 (j - 24)) by (rewrite <- bpow_double; f_equal; ring).
  destruct (fmt32_grid p j Fp) as (K & EK); [rewrite Rabs_pos_eq; lra|].
  assert (a0 : 0 <= a) by (apply octave_nonneg; exact Hs).
  set (Q := ZnearestE (s * bpow radix2 (23 - j))) in *. assert (Ea : a = IZR Q * bpow radix2 (j - 23)) by reflexivity.
  assert (Eg : p + a = IZR (K + Q) * bpow radix2 (j - 23)) by (rewrite plus_IZR, EK, Ea; ring).
  assert (Fg : fmt32 (p + a)) by (rewrite Eg; apply grid_fmt; [exact Hj|]; rewrite <- Eg, Rabs_pos_eq; lra).
  set (x := p + s).
  assert (Near : Rabs (rnd32 x - x) <= Rabs (p + a - x)).
  { destruct (round_N_pt radix2 fexp32 (fun t => negb (Z.even t)) x) as [_ N]. apply N. exact Fg. }
  assert (D1 : Rabs (p + a - x) < bpow radix2 (j - 24)).
  { unfold x. replace (p + a - (p + s)) with (- (s - a)) by ring. rewrite Rabs_Ropp. exact Cl. }
  assert (R0 : bpow radix2 j <= rnd32 x).
  { apply rnd_ge_fmt; [apply (fmt_bpow (prec:=24) (emax:=128)); unfold SpecFloat.emin; lia|unfold x; lra]. }
  destruct (fmt32_grid (rnd32 x) j) as (K2 & E2); [apply generic_format_round; typeclasses eauto|rewrite Rabs_pos_eq; lra|].
  rewrite Eg. rewrite E2. do 2 f_equal.
  assert (Db : Rabs (IZR K2 * bpow radix2 (j - 23) - IZR (K + Q) * bpow radix2 (j - 23)) < bpow radix2 (j - 23)).
  { rewrite <- E2, <- Eg. replace (rnd32 x - (p + a)) with ((rnd32 x - x) - (p + a - x)) by ring.
    eapply Rle_lt_trans; [apply Rabs_triang|]. rewrite Rabs_Ropp. lra. }
  rewrite <- Rmult_minus_distr_r, <- minus_IZR, Rabs_mult, (Rabs_pos_eq (bpow _ _)) in Db by lra.
  assert (Db2 : Rabs (IZR (K2 - (K + Q))) < 1).
  { apply Rmult_lt_reg_r with (bpow radix2 (j - 23)); [exact U0|lra]. }
  rewrite <- abs_IZR in Db2. apply lt_IZR in Db2. lia.
Qed.

(** ** one call *)
Lemma next_even p s j : (-100 <= j <= 100)%Z -> (exists K, p = IZR (2 * K) * bpow radix2 (j - 23)) -> bpow radix2 j <= p -> 0 <= s ->
  half (s * bpow radix2 (23 - j)) -> p + octave_step j s <= bpow radix2 (j + 1) ->
  rnd32 (p + s) = p + octave_step j s /\ exists K, p + octave_step j s = IZR (2 * K) * bpow radix2 (j - 23).
Proof.
  intros Hj (K & EK) Lp Hs Hh Up. set (z := s * bpow radix2 (23 - j)) in *.
  pose proof (bpow_gt_0 radix2 j) as J0. pose proof (bpow_gt_0 radix2 (j - 23)) as U0.
  assert (B1 : bpow radix2 (j - 23) * bpow radix2 (23 - j) = 1) by (rewrite <- bpow_plus; replace (j - 23 + (23 - j))%Z with 0%Z by ring; reflexivity).
  assert (Ea : octave_step j s = IZR (ZnearestE z) * bpow radix2 (j - 23)) by reflexivity.
  assert (Ev : exists Q, ZnearestE z = (2 * Q)%Z) by (pose proof (half_even z Hh) as H; apply Z.even_spec in H; exact H).
  destruct Ev as (Q & EQ). rewrite EQ in Ea. split; [|exists (K + Q)%Z; rewrite EK, Ea, <- Rmult_plus_distr_r, <- plus_IZR; f_equal; f_equal; ring].
  destruct (Rle_dec (p + s) (bpow radix2 (j + 1))) as [Le|Gt].
  - rewrite (rnd_octave (p + s) j Hj) by lra.
    replace ((p + s) * bpow radix2 (23 - j)) with (IZR (2 * K) + z).
    + rewrite (shift_even K z Hh), EQ, plus_IZR, Ea, EK. ring.
    + unfold z. rewrite EK, Rmult_plus_distr_r, (Rmult_assoc (IZR (2 * K))), B1. ring.
  - assert (Es : s = z * bpow radix2 (j - 23)) by (unfold z; rewrite Rmult_assoc, (Rmult_comm (bpow radix2 (23 - j))), B1; ring).
    assert (Nz : Rabs (z - IZR (ZnearestE z)) <= / 2) by (unfold Rdiv in *; exact (Znearest_half _ z)).
    rewrite EQ in Nz. apply Rabs_le_inv in Nz.
    assert (D : s - octave_step j s <= / 2 * bpow radix2 (j - 23)).
    { rewrite Ea, Es, <- Rmult_minus_distr_r. apply Rmult_le_compat_r; lra. }
    set (g := bpow radix2 (j + 1)) in *.
    assert (Eg : g = IZR (2 ^ 24) * bpow radix2 (j - 23)) by (unfold g; rewrite IZR_pow2, <- bpow_plus by lia; f_equal; ring).
    assert (Ep : p + octave_step j s = g).
    { assert (E1 : p + octave_step j s = IZR (2 * K + 2 * Q) * bpow radix2 (j - 23)) by (rewrite EK, Ea, plus_IZR; ring).
      rewrite E1, Eg in *. f_equal. f_equal.
      assert (H1 : IZR (2 * K + 2 * Q) <= IZR (2 ^ 24)) by (apply Rmult_le_reg_r with (bpow radix2 (j - 23)); lra).
      assert (H2 : IZR (2 ^ 24) < IZR (2 * K + 2 * Q) + 1) by (apply Rmult_lt_reg_r with (bpow radix2 (j - 23)); lra).
      rewrite <- plus_IZR in H2. apply le_IZR in H1. apply lt_IZR in H2. lia. }
    rewrite Ep. set (x := p + s) in *. assert (Hx : g < x <= g + / 2 * bpow radix2 (j - 23)) by (unfold x in *; lra).
    assert (Fg : fmt32 g) by (apply (fmt_bpow (prec:=24) (emax:=128)); unfold SpecFloat.emin; lia).
    destruct (round_N_pt radix2 fexp32 (fun t => negb (Z.even t)) x) as [Fx N]. specialize (N g Fg).
    assert (R0 : g <= rnd32 x) by (apply rnd_ge_fmt; [exact Fg|lra]).
    assert (g0 : 0 < g) by apply bpow_gt_0.
    destruct (fmt32_grid (rnd32 x) (j + 1)) as (K2 & E2); [exact Fx|rewrite Rabs_pos_eq; fold g; lra|].
    assert (Eu : bpow radix2 (j + 1 - 23) = 2 * bpow radix2 (j - 23)) by (rewrite <- bpow_double; f_equal; ring).
    assert (Up2 : rnd32 x <= g + bpow radix2 (j - 23)).
    { apply Rabs_le_inv in N. rewrite Rabs_left1 in N by lra. lra. }
    rewrite Eu in E2. assert (Eg2 : g = IZR (2 ^ 23) * (2 * bpow radix2 (j - 23))).
    { rewrite Eg. change (2 ^ 24)%Z with (2 ^ 23 * 2)%Z. rewrite mult_IZR. ring. }
    rewrite E2, Eg2 in *. f_equal. f_equal.
    assert (H1 : IZR (2 ^ 23) <= IZR K2) by (apply Rmult_le_reg_r with (2 * bpow radix2 (j - 23)); lra).
    assert (H2 : IZR K2 < IZR (2 ^ 23) + 1) by (apply Rmult_lt_reg_r with (2 * bpow radix2 (j - 23)); lra).
    rewrite <- plus_IZR in H2. apply le_IZR in H1. apply lt_IZR in H2. lia.
Qed.
Lemma next_position p s j : (-100 <= j <= 100)%Z -> fmt32 p -> bpow radix2 j <= p -> 0 <= s -> steady j s p ->
  p + octave_step j s <= bpow radix2 (j + 1) -> rnd32 (p + s) = p + octave_step j s /\ steady j s (p + octave_step j s).
Proof.
  intros Hj Fp Lp Hs St Up. destruct (clear_or_half j s) as [Cl|Hh].
  - split; [apply next_clear; assumption|left; exact Cl].
  - destruct St as [Cl|Ev]; [split; [apply next_clear; assumption|left; exact Cl]|].
    destruct (next_even p s j Hj Ev Lp Hs Hh Up) as [A B]. split; [exact A|right; exact B].
Qed.
(** one call is enough to come to a steady position *)
Lemma becomes_steady p s j : (-100 <= j <= 100)%Z -> fmt32 p -> bpow radix2 j <= p -> 0 <= s -> p + s <= bpow radix2 (j + 1) ->
  steady j s (rnd32 (p + s)).
Proof.
  intros Hj Fp Lp Hs Up. destruct (clear_or_half j s) as [Cl|Hh]; [left; exact Cl|right].
  pose proof (bpow_gt_0 radix2 j) as J0. destruct (fmt32_grid p j Fp) as (K & EK); [rewrite Rabs_pos_eq; lra|].
  rewrite (rnd_octave (p + s) j Hj) by lra.
  assert (B1 : bpow radix2 (j - 23) * bpow radix2 (23 - j) = 1) by (rewrite <- bpow_plus; replace (j - 23 + (23 - j))%Z with 0%Z by ring; reflexivity).
  replace ((p + s) * bpow radix2 (23 - j)) with (IZR K + s * bpow radix2 (23 - j)) by (rewrite EK, Rmult_plus_distr_r, (Rmult_assoc (IZR K)), B1; ring).
  pose proof (half_even _ (half_shift K _ Hh)) as H. apply Z.even_spec in H. destruct H as (Q & ->). exists Q. reflexivity.
Qed.

(** ** positions *)
Lemma octave_states j n : (-100 <= j <= 100)%Z -> forall r ys r', playing r -> rcalls n r = Ok (ys, r') ->
  bpow radix2 j <= B2R (r_ind r) -> steady j (B2R (step r)) (B2R (r_ind r)) ->
  let q := B2R (r_ind r) + INR n * octave_step j (B2R (step r)) in
  q <= bpow radix2 (j + 1) -> q < IZR (Z.of_nat (length (r_data r))) -> B2R (r_ind r') = q /\ steady j (B2R (step r)) q.
Proof.
  intro Hj. induction n as [|n IH]; intros r ys r' Pl E Lp St q Hq Hl.
  - injection E as _ <-. unfold q. simpl. rewrite Rmult_0_l, Rplus_0_r. auto.
  - destruct (rcalls_last _ _ _ _ E) as (zs & r1 & y & E1 & E2 & _).
    destruct (rcalls_playing _ _ _ _ Pl E1) as (P1 & S1 & D1 & M1).
    assert (s0 : 0 <= B2R (step r)) by apply Pl. pose proof (octave_nonneg j _ s0) as a0. unfold q in *. rewrite S_INR in *.
    destruct (IH r zs r1 Pl E1 Lp St) as (I1 & St1); [lra|lra|].
    destruct (process_step _ _ _ P1 E2) as [(Q & ->)|(X & _)]; [|rewrite D1 in X; lra].
    destruct (advance_pos _ P1 Q) as (_ & B & _). rewrite S1 in B.
    rewrite <- I1 in St1. destruct (next_position (B2R (r_ind r1)) (B2R (step r)) j Hj) as (X & Y); try assumption.
    + apply fmt_B2R. + lra. + lra.
    + rewrite I1 in X, Y. rewrite B, I1.
      replace (B2R (r_ind r) + (INR n + 1) * octave_step j (B2R (step r))) with (B2R (r_ind r) + INR n * octave_step j (B2R (step r)) + octave_step j (B2R (step r))) by ring. auto.
Qed.
Lemma octave_positions j n : (-100 <= j <= 100)%Z -> forall r ys r', playing r -> rcalls n r = Ok (ys, r') ->
  bpow radix2 j <= B2R (r_ind r) -> steady j (B2R (step r)) (B2R (r_ind r)) ->
  let q := B2R (r_ind r) + INR n * octave_step j (B2R (step r)) in
  q <= bpow radix2 (j + 1) -> q < IZR (Z.of_nat (length (r_data r))) -> B2R (r_ind r') = q.
Proof. intros Hj r ys r' Pl E Lp St q Hq Hl. apply (octave_states j n Hj r ys r'); assumption. Qed.

Lemma call_to_steady j r y r' : (-100 <= j <= 100)%Z -> playing r ->
  resampler_process r = Ok (y, r') -> bpow radix2 j <= B2R (r_ind r) -> B2R (r_ind r) < IZR (Z.of_nat (length (r_data r))) ->
  B2R (r_ind r) + B2R (step r) <= bpow radix2 (j + 1) -> steady j (B2R (step r')) (B2R (r_ind r')).
Proof.
  intros Hj Pl E Lp Ll Up. destruct (process_step _ _ _ Pl E) as [(Q & ->)|(X & _)]; [|lra].
  destruct (advance_pos _ Pl Q) as (_ & B & C & _). rewrite B, C. apply becomes_steady; try assumption; [apply fmt_B2R|apply Pl].
Qed.

(** ** what is heard *)
Lemma octave_heard e j data r n ys r' L M g eps : (-124 <= e <= 125)%Z -> within e data -> (Z.of_nat (length data) <= 2 ^ 24)%Z -> (-100 <= j <= 100)%Z ->
  smooth L M g -> recording eps g data -> playing r -> r_data r = data -> rcalls n r = Ok (ys, r') ->
  bpow radix2 j <= B2R (r_ind r) -> steady j (B2R (step r)) (B2R (r_ind r)) ->
  let D := bpow radix2 (e - 22) + eps + M / 8 in
  forall i, (i < n)%nat -> let p := B2R (r_ind r) + INR i * octave_step j (B2R (step r)) in
    p <= bpow radix2 (j + 1) -> p < IZR (Z.of_nat (length data)) - 1 ->
    is_finite (nth i ys f0) = true /\ (~ below_power p -> Rabs (B2R (nth i ys f0) - g p) <= D) /\ Rabs (B2R (nth i ys f0) - g p) <= D + L.
Proof.
  intros He W K24 Hj Sm Rc Pl DD E Lp Cl D i Hi p Hp Hl.
  destruct (rcalls_nth n i r ys r' Hi E) as (zs & r1 & r2 & E1 & E2).
  destruct (rcalls_playing _ _ _ _ Pl E1) as (P1 & S1 & D1 & M1).
  assert (I1 : B2R (r_ind r1) = p) by (apply (octave_positions j i Hj r zs r1 Pl E1 Lp Cl); [exact Hp|rewrite DD; fold p; lra]).
  destruct (smooth_call e data r1 _ r2 L M g eps He W K24 Sm Rc P1 ltac:(congruence) ltac:(rewrite I1; exact Hl) E2) as (A & B & C).
  rewrite I1 in B, C. auto.
Qed.

(** ** reaching a power of two *)
Lemma rcalls_ok data : (Z.of_nat (length data) <= 2 ^ 24)%Z -> (forall q, (0 <= q <= 22)%Z -> Z.of_nat (length data) <> (2 ^ q + 1)%Z) ->
  forall n r, playing r -> r_data r = data -> exists ys r', rcalls n r = Ok (ys, r').
Proof.
  intros K24 N. induction n as [|n IH]; intros r Pl DD; [eexists _, _; reflexivity|]. rewrite rcalls_S.
  destruct (resampler_process r) as [[y r1]|] eqn:E.
  - destruct (process_playing _ _ _ Pl E) as (A & B & C & _). destruct (IH r1 A ltac:(congruence)) as (ys & r' & Ec). cbn [bind]. rewrite Ec. cbn [bind]. eauto.
  - exfalso. apply process_nl_panic_iff in E; [|apply Pl|rewrite DD; exact K24]. destruct E as (q & Hq & X & _). rewrite DD in X. exact (N q Hq X).
Qed.
Lemma rcalls_prefix n m r ys r' : rcalls n r = Ok (ys, r') ->
  rcalls (n + m) r = (do (zs, r2) <- rcalls m r'; Ok (ys ++ zs, r2)).
Proof. intro E. rewrite rcalls_app, E. reflexivity. Qed.
Lemma rcalls_length n : forall r ys r', rcalls n r = Ok (ys, r') -> length ys = n.
Proof.
  induction n as [|n IH]; intros r ys r' E; [injection E as <- _; reflexivity|]. rewrite rcalls_S in E.
  destruct (resampler_process r) as [[y r1]|]; [|discriminate]. cbn [bind] in E. destruct (rcalls n r1) as [[zs r2]|] eqn:E2; [|discriminate].
  injection E as <- _. cbn [length]. f_equal. exact (IH _ _ _ E2).
Qed.

(** the first call that finds the position at or above T *)
Lemma reaches k T data r : (0 <= k <= 24)%Z -> (Z.of_nat (length data) <= 2 ^ 24)%Z ->
  (forall q, (0 <= q <= 22)%Z -> Z.of_nat (length data) <> (2 ^ q + 1)%Z) -> playing r -> r_data r = data ->
  T <= bpow radix2 k -> T <= IZR (Z.of_nat (length data)) -> B2R (r_ind r) < T -> bpow radix2 (k - 25) < B2R (step r) ->
  exists n ys r1 y r2, rcalls n r = Ok (ys, r1) /\ B2R (r_ind r1) < T /\ resampler_process r1 = Ok (y, r2) /\ T <= B2R (r_ind r2).
Proof.
  intros Hk K24 N Pl DD HT HL Q Hs. set (d := bpow radix2 (k - 25)) in *.
  assert (Fin : exists m, T <= B2R (r_ind r) + INR m * (B2R (step r) - d)).
  { set (z := (T - B2R (r_ind r)) / (B2R (step r) - d)). assert (Hm : exists m, INR m > z).
    { exists (Z.to_nat (up (Rabs z))). destruct (archimed (Rabs z)) as [A _]. pose proof (Rabs_pos z). pose proof (Rle_abs z).
      rewrite INR_IZR_INZ, Z2Nat.id; [lra|]. apply le_IZR. lra. }
    destruct Hm as (m & Hm). exists m. unfold z in Hm.
    apply Rmult_gt_compat_r with (r := B2R (step r) - d) in Hm; [|lra]. unfold Rdiv in Hm. rewrite Rmult_assoc, Rinv_l, Rmult_1_r in Hm by lra. lra. }
  destruct Fin as (m & Hm).
  assert (Ind : forall m ys r', rcalls m r = Ok (ys, r') -> T <= B2R (r_ind r') ->
    exists n ys r1 y r2, rcalls n r = Ok (ys, r1) /\ B2R (r_ind r1) < T /\ resampler_process r1 = Ok (y, r2) /\ T <= B2R (r_ind r2)).
  { clear m Hm. induction m as [|m IH]; intros ys r' E X.
    - injection E as _ <-. lra.
    - destruct (rcalls_last _ _ _ _ E) as (zs & r1 & y & E1 & E2 & _).
      destruct (Rlt_dec (B2R (r_ind r1)) T) as [H|H].
      + exists m, zs, r1, y, r'. auto.
      + apply (IH zs r1 E1). lra. }
  destruct (rcalls_ok data K24 N m r Pl DD) as (ys & r' & E). apply (Ind m ys r' E).
  apply (not_after k Hk m r ys r' T Pl E HT); [rewrite DD; exact HL|exact Hm].
Qed.

Lemma octave_step_near j s : Rabs (s - octave_step j s) <= bpow radix2 (j - 24).
Proof.
  unfold octave_step. set (z := s * bpow radix2 (23 - j)).
  assert (Es : s = z * bpow radix2 (j - 23)).
  { unfold z. rewrite Rmult_assoc, <- bpow_plus. replace (23 - j + (j - 23))%Z with 0%Z by ring. simpl. ring. }
  rewrite Es at 1. rewrite <- Rmult_minus_distr_r, Rabs_mult, (Rabs_pos_eq (bpow _ _)) by apply bpow_ge_0.
  replace (bpow radix2 (j - 24)) with (/ 2 * bpow radix2 (j - 23)).
  - apply Rmult_le_compat_r; [apply bpow_ge_0|exact (Znearest_half _ z)].
  - replace (j - 23)%Z with (j - 24 + 1)%Z by ring. rewrite bpow_double. lra.
Qed.

Lemma octave_of_track e j data (rate speed : f64) L M g eps : (-124 <= e <= 125)%Z -> within e data ->
  (Z.of_nat (length data) <= 2 ^ 24)%Z -> (forall q, (0 <= q <= 22)%Z -> Z.of_nat (length data) <> (2 ^ q + 1)%Z) ->
  fin rate -> 1 <= B2R rate <= 1048576 -> fin speed -> / 1048576 <= B2R speed <= 1048576 ->
  smooth L M g -> recording eps g data -> (0 <= j <= 23)%Z ->
  let s := B2R (step (player data rate speed)) in let a := octave_step j s in let d := bpow radix2 (j - 25) in
  let len := IZR (Z.of_nat (length data)) in
  d < s -> 2 * (s + 2 * d) <= bpow radix2 j -> bpow radix2 j + 2 * (s + 2 * d) < len ->
  exists n0 p0, bpow radix2 j <= p0 <= bpow radix2 j + 2 * (s + 2 * d) /\ (INR n0 - 2) * (s - d) < bpow radix2 j <= INR n0 * (s + d) /\
    forall n, exists ys r', rcalls (n0 + n) (player data rate speed) = Ok (ys, r') /\
      forall i, (i < n)%nat -> let p := p0 + INR i * a in
        p <= bpow radix2 (j + 1) -> p < len - 1 ->
        let y := nth (n0 + i) ys f0 in let D := bpow radix2 (e - 22) + eps + M / 8 in
        is_finite y = true /\ (~ below_power p -> Rabs (B2R y - g p) <= D) /\ Rabs (B2R y - g p) <= D + L.
Proof.
  intros He W K24 N Fr Hr Fs Hs Sm Rc Hj s a d len Ds Sj Lj.
  destruct (player_playing data rate speed Fr Hr Fs Hs ltac:(lia)) as (Pl & P0).
  set (r := player data rate speed) in *. assert (Dr : r_data r = data) by reflexivity.
  pose proof (bpow_gt_0 radix2 j) as J0. pose proof (bpow_gt_0 radix2 (j - 25)) as d0. fold d in d0.
  assert (HL : bpow radix2 j <= IZR (Z.of_nat (length data))) by (fold len; lra).
  assert (HL' : bpow radix2 j <= IZR (Z.of_nat (length (r_data r)))) by (rewrite Dr; exact HL).
  assert (E1j : bpow radix2 (j + 1) = 2 * bpow radix2 j) by apply bpow_double.
  assert (Er : forall x, 0 <= x <= bpow radix2 (j + 1) -> Rabs (rnd32 x - x) <= 2 * d).
  { intros x Hx. pose proof (rnd_step (j + 1) ltac:(lia) x Hx) as R. replace (j + 1 - 25)%Z with (j - 25 + 1)%Z in R by ring. rewrite bpow_double in R. exact R. }
  destruct (reaches j (bpow radix2 j) data r ltac:(lia) K24 N Pl Dr (Rle_refl _) HL ltac:(rewrite P0; exact J0) Ds)
    as (m & ys1 & r1 & y & r2 & E1 & B1 & E2 & B2).
  destruct (rcalls_playing _ _ _ _ Pl E1) as (P1 & S1 & D1 & _).
  destruct (process_playing _ _ _ P1 E2) as (P2 & S2 & D2 & _).
  assert (U2 : B2R (r_ind r2) <= bpow radix2 j + (s + 2 * d)).
  { destruct (process_step _ _ _ P1 E2) as [(Q & X)|(X & _)]; [|rewrite D1, Dr in X; lra].
    destruct (advance_pos _ P1 Q) as (_ & B & _). rewrite <- X, S1 in B. fold s in B. rewrite B.
    assert (0 <= B2R (r_ind r1)) by apply P1.
    pose proof (Er (B2R (r_ind r1) + s) ltac:(lra)) as R. apply Rabs_le_inv in R. lra. }
  destruct (rcalls_ok data K24 N 1 r2 P2 ltac:(congruence)) as (zs1 & r3 & E3).
  assert (Ez : exists z, resampler_process r2 = Ok (z, r3) /\ zs1 = [z]).
  { rewrite rcalls_S in E3. destruct (resampler_process r2) as [[z r4]|]; [|discriminate]. cbn [bind] in E3.
    change (rcalls 0 r4) with (Ok ([] : list f32, r4)) in E3. cbn [bind] in E3. exists z. split; congruence. }
  destruct Ez as (z & E4 & ->).
  destruct (process_playing _ _ _ P2 E4) as (P3 & S3 & D3 & M3).
  assert (Dd2 : r_data r2 = data) by congruence.
  assert (Es2 : step r2 = step r) by congruence. assert (Es3 : step r3 = step r) by congruence.
  assert (I3 : B2R (r_ind r3) = rnd32 (B2R (r_ind r2) + s)).
  { destruct (process_step _ _ _ P2 E4) as [(Q & X)|(X & _)]; [|rewrite Dd2 in X; fold len in X; lra].
    destruct (advance_pos _ P2 Q) as (_ & B & _). rewrite <- X, Es2 in B. exact B. }
  assert (St3 : steady j s (B2R (r_ind r3))).
  { rewrite I3. apply becomes_steady; [lia|apply fmt_B2R|exact B2|lra|lra]. }
  assert (E5 : rcalls (S (S m)) r = Ok ((ys1 ++ [y]) ++ [z], r3)).
  { replace (S (S m)) with (m + 2)%nat by lia. rewrite (rcalls_prefix _ 2 _ _ _ E1), rcalls_S, E2. cbn [bind]. rewrite E3. cbn [bind].
    rewrite <- app_assoc. reflexivity. }
  exists (S (S m)), (B2R (r_ind r3)). split.
  { split; [lra|]. rewrite I3. assert (0 <= B2R (r_ind r2)) by apply P2. pose proof (Er (B2R (r_ind r2) + s) ltac:(lra)) as R. apply Rabs_le_inv in R. lra. }
  assert (Hj' : (0 <= j <= 24)%Z) by lia.
  split.
  { split.
    - rewrite !S_INR. apply Rnot_le_lt. intro X. assert (bpow radix2 j <= B2R (r_ind r1)); [|lra].
      apply (not_after j Hj' m r ys1 r1 _ Pl E1 (Rle_refl _) HL'). rewrite P0. fold s d. lra.
    - apply Rnot_lt_le. intro X. assert (B2R (r_ind r3) < bpow radix2 j); [|lra].
      apply (not_before j Hj' (S (S m)) r _ r3 _ Pl E5 (Rle_refl _) HL'). rewrite P0. fold s d. lra. }
  intro n. destruct (rcalls_ok data K24 N n r3 P3 ltac:(congruence)) as (zs & r' & E6).
  exists (((ys1 ++ [y]) ++ [z]) ++ zs), r'. split; [rewrite (rcalls_prefix _ n _ _ _ E5), E6; reflexivity|].
  intros i Hi p Hp Hl yi D. assert (Ey : yi = nth i zs f0).
  { unfold yi. rewrite app_nth2; rewrite (rcalls_length _ _ _ _ E5); [|lia]. f_equal. lia. }
  rewrite Ey.
  pose proof (octave_heard e j data r3 n zs r' L M g eps He W K24 ltac:(lia) Sm Rc P3 ltac:(congruence) E6 ltac:(lra)) as O.
  rewrite Es3 in O. exact (O St3 i Hi Hp Hl).
Qed.

(** ** tones *)
Lemma rtone_shift om w t0 a : exists w', modulus w' = modulus w /\ forall t, rtone om w (t0 + t * a) = rtone (om * a) w' t.
Proof.
  exists (fst w * cos (om * t0) - snd w * sin (om * t0), fst w * sin (om * t0) + snd w * cos (om * t0)). split.
  - unfold modulus, cn2. cbn [fst snd]. f_equal. pose proof (sin2_cos2 (om * t0)) as X. unfold Rsqr in X.
    set (c := cos (om * t0)) in *. set (s := sin (om * t0)) in *. clearbody c s.
    replace (fst w * fst w + snd w * snd w) with ((fst w * fst w + snd w * snd w) * (s * s + c * c)) by (rewrite X; ring). ring.
  - intro t. unfold rtone. cbn [fst snd]. replace (om * (t0 + t * a)) with (om * t0 + om * a * t) by ring.
    rewrite cos_plus, sin_plus. ring.
Qed.

(** ** a 44.1 kHz track *)
Lemma cd_step data : B2R (step (player data (of_Z 44100) (of_Z 1))) = 15414067 * bpow radix2 (-24).
Proof.
  assert (E : step (player data (of_Z 44100) (of_Z 1)) = lit 15414067 (-24)).
  { unfold step. cbn [player set_playback_speed resampler_new r_inc r_speed]. apply B2SF_inj. vm_compute. reflexivity. }
  rewrite E. apply (lit_ok (prec:=24) (emax:=128)).
  - apply (fmt_FLT (prec:=24) (emax:=128)); [lia|unfold SpecFloat.emin; lia].
  - rewrite Rabs_pos_eq by (apply Rmult_le_pos; [lra|apply bpow_ge_0]).
    apply Rle_lt_trans with 1; [simpl; lra|]. change 1 with (bpow radix2 0). apply bpow_lt. lia.
Qed.
Lemma cd_octaves data : let s := B2R (step (player data (of_Z 44100) (of_Z 1))) in
  octave_step 20 s = 7 / 8 /\ octave_step 21 s = 1.
Proof.
  intro s. assert (Es : s = 15414067 / 16777216) by (unfold s; rewrite cd_step; simpl; lra).
  assert (A : octave_step 20 s = 7 / 8).
  { unfold octave_step. rewrite (Znearest_imp _ _ 7); [simpl; lra|]. rewrite Es. apply Rabs_lt. simpl. lra. }
  assert (B : octave_step 21 s = 1).
  { unfold octave_step. rewrite (Znearest_imp _ _ 4); [simpl; lra|]. rewrite Es. apply Rabs_lt. simpl. lra. }
  split; assumption.
Qed.

Lemma cd_tone e data F w eps j a : (-124 <= e <= 125)%Z -> within e data ->
  (Z.of_nat (length data) <= 2 ^ 24)%Z -> (forall q, (0 <= q <= 22)%Z -> Z.of_nat (length data) <> (2 ^ q + 1)%Z) ->
  0 <= F -> recording eps (rtone (2 * PI * F / 44100) w) data ->
  (j, a) = (20%Z, 7 / 8) \/ (j, a) = (21%Z, 1) ->
  (2 ^ (j + 1) + 2 <= Z.of_nat (length data))%Z ->
  exists n0 n1 w', modulus w' = modulus w /\
    bpow radix2 j * (100 / 99) <= INR n0 <= bpow radix2 j * (118 / 100) /\ bpow radix2 j * (99 / 100) <= INR n1 * a /\
    forall n, exists ys r', rcalls (n0 + n) (monowav_from_track (of_Z 44100) data) = Ok (ys, r') /\
      forall i, (i < n)%nat -> (i < n1)%nat ->
        Rabs (B2R (nth (n0 + i) ys f0) - tone (rad (F * (a * 48000 / 44100))) w' i) <=
          bpow radix2 (e - 22) + eps + modulus w * (2 * PI * F / 44100) * (2 * PI * F / 44100) / 8.
Proof.
  intros He W K24 N HF Rc Hja HL.
  assert (Fr : fin (of_Z 44100 : f64) /\ B2R (of_Z 44100 : f64) = 44100) by exact (of_Z64 44100 ltac:(lia)).
  assert (Fo : fin (of_Z 1 : f64) /\ B2R (of_Z 1 : f64) = 1) by exact (of_Z64 1 ltac:(lia)).
  destruct Fr as [Fr Vr]. destruct Fo as [Fo Vo].
  set (om := 2 * PI * F / 44100) in *. assert (O0 : 0 <= om) by (unfold om; pose proof PI_RGT_0; nra).
  destruct (cd_octaves data) as (O20 & O21). pose proof (cd_step data) as Es.
  change (monowav_from_track (of_Z 44100) data) with (player data (of_Z 44100) (of_Z 1)).
  assert (Jr : (20 <= j <= 21)%Z) by (destruct Hja as [X|X]; injection X as -> _; lia).
  assert (Oa : octave_step j (B2R (step (player data (of_Z 44100) (of_Z 1)))) = a) by (destruct Hja as [X|X]; injection X as -> ->; assumption).
  assert (Ra : 7 / 8 <= a <= 1) by (destruct Hja as [X|X]; injection X as _ ->; lra).
  assert (Jb : bpow radix2 20 <= bpow radix2 j) by (apply bpow_le; lia). change (bpow radix2 20) with 1048576 in Jb.
  assert (Dj : bpow radix2 (j - 25) <= / 16) by (change (/ 16) with (bpow radix2 (-4)); apply bpow_le; lia).
  assert (D0 : / 32 <= bpow radix2 (j - 25)) by (change (/ 32) with (bpow radix2 (-5)); apply bpow_le; lia).
  assert (Ev : IZR (2 ^ (j + 1)) = bpow radix2 (j + 1)) by (apply IZR_pow2; lia).
  assert (Len : bpow radix2 (j + 1) + 2 <= IZR (Z.of_nat (length data))) by (rewrite <- Ev, <- plus_IZR; apply IZR_le; lia).
  assert (E2 : bpow radix2 (j + 1) = 2 * bpow radix2 j) by apply bpow_double.
  destruct (octave_of_track e j data (of_Z 44100) (of_Z 1) _ _ _ eps He W K24 N Fr ltac:(rewrite Vr; lra) Fo ltac:(rewrite Vo; lra)
    (rtone_smooth om w O0) Rc ltac:(lia)) as (n0 & p0 & P0 & N0 & H).
  { rewrite Es. change (bpow radix2 (-24)) with (/ 16777216). lra. }
  { rewrite Es. change (bpow radix2 (-24)) with (/ 16777216). lra. }
  { rewrite Es. change (bpow radix2 (-24)) with (/ 16777216). lra. }
  rewrite Oa in H. rewrite Es in P0, N0. change (bpow radix2 (-24)) with (/ 16777216) in P0, N0.
  set (P := bpow radix2 j) in *. set (d := bpow radix2 (j - 25)) in *.
  destruct (rtone_shift om w p0 a) as (w' & Mw & Ew).
  set (n1 := Z.to_nat (Zfloor ((bpow radix2 (j + 1) - 1 - p0) / a) + 1)).
  assert (Q0 : 0 <= (bpow radix2 (j + 1) - 1 - p0) / a).
  { apply Rmult_le_pos; [lra|]. left. apply Rinv_0_lt_compat. lra. }
  assert (V1 : INR n1 = IZR (Zfloor ((bpow radix2 (j + 1) - 1 - p0) / a)) + 1).
  { unfold n1. rewrite INR_IZR_INZ, Z2Nat.id, plus_IZR; [reflexivity|]. assert (0 <= Zfloor ((bpow radix2 (j + 1) - 1 - p0) / a))%Z by (apply Zfloor_lub; exact Q0). lia. }
  exists n0, n1, w'. split; [exact Mw|]. split; [|split].
  - destruct N0 as [Nu Nl]. pose proof (pos_INR n0) as Np. assert (X1 : P <= INR n0 * (99 / 100)).
    { eapply Rle_trans; [exact Nl|]. apply Rmult_le_compat_l; lra. }
    assert (X2 : (INR n0 - 2) * (85 / 100) <= (INR n0 - 2) * (15414067 * / 16777216 - d)) by (apply Rmult_le_compat_l; lra). lra.
  - pose proof (Zfloor_ub ((bpow radix2 (j + 1) - 1 - p0) / a)) as U. rewrite <- V1 in U.
    apply Rmult_lt_compat_r with (r := a) in U; [|lra]. unfold Rdiv in U. rewrite Rmult_assoc, Rinv_l, Rmult_1_r in U by lra. lra.
  - intro n. destruct (H n) as (ys & r' & E & A). exists ys, r'. split; [exact E|]. intros i Hi Hi1.
    assert (Ui : p0 + INR i * a <= bpow radix2 (j + 1) - 1).
    { assert (I1 : INR i <= (bpow radix2 (j + 1) - 1 - p0) / a).
      { apply Rle_trans with (IZR (Zfloor ((bpow radix2 (j + 1) - 1 - p0) / a))); [|apply Zfloor_lb].
        assert (INR i + 1 <= INR n1) by (rewrite <- S_INR; apply le_INR; lia). lra. }
      apply Rmult_le_compat_r with (r := a) in I1; [|lra]. unfold Rdiv in I1. rewrite Rmult_assoc, Rinv_l, Rmult_1_r in I1 by lra. lra. }
    destruct (A i Hi ltac:(lra) ltac:(lra)) as (_ & B & _).
    assert (NB : ~ below_power (p0 + INR i * a)).
    { intros (q & Hq & X). pose proof (pos_INR i) as I0. assert (0 <= INR i * a) by (apply Rmult_le_pos; lra).
      assert (Sq : bpow radix2 (q - 24) <= / 4) by (apply Rle_trans with (bpow radix2 (-2)); [apply bpow_le; lia|simpl; lra]).
      pose proof (bpow_gt_0 radix2 (q - 24)) as Sq0.
      assert (G : (j < q)%Z) by (apply (lt_bpow radix2); fold P; lra).
      assert (bpow radix2 (j + 1) <= bpow radix2 q) by (apply bpow_le; lia). lra. }
    specialize (B NB). rewrite Ew in B.
    replace (rad (F * (a * 48000 / 44100))) with (om * a) by (unfold om, rad; field).
    change (tone (om * a) w' i) with (rtone (om * a) w' (INR i)). lra.
Qed.
