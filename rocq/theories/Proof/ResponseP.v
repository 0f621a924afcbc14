(** * Exact frequency responses of LowPass, HighPass and BandPass *)
From Coq Require Import ZArith List Bool Reals Lra Lia Psatz.
From Verif Require Import Model.Modifiers Model.Filters Spec.Response Proof.GenericP Proof.FiltersP Proof.FiltersP2 Proof.BandPassP.
Import ListNotations.
Local Open Scope R_scope.

(** ** complex numbers *)
Lemma c_ext (x y : C) : fst x = fst y -> snd x = snd y -> x = y.
Proof. destruct x, y. cbn. congruence. Qed.
Ltac cring := apply c_ext; cbn [fst snd cadd cmul csub copp cre]; ring.
Lemma C_ring : ring_theory (cre 0) (cre 1) cadd cmul csub copp (@eq C).
Proof. constructor; intros; cring. Qed.
Add Ring CRing : C_ring.
Lemma cn2_mul x y : cn2 (cmul x y) = cn2 x * cn2 y.
Proof. unfold cn2, cmul. cbn [fst snd]. ring. Qed.
Lemma cn2_cre a : cn2 (cre a) = a * a.
Proof. unfold cn2, cre. cbn [fst snd]. ring. Qed.
Lemma cmul_inv x : cn2 x <> 0 -> cmul x (cinv x) = cre 1.
Proof. intro H. apply c_ext; unfold cmul, cinv, cre; cbn [fst snd]; unfold cn2 in *; field; exact H. Qed.
Lemma cn2_inv x : cn2 x <> 0 -> cn2 (cinv x) = / cn2 x.
Proof.
  intro H. apply Rmult_eq_reg_l with (cn2 x); [|exact H]. rewrite <- cn2_mul, cmul_inv by exact H. rewrite cn2_cre, Rinv_r by exact H. ring.
Qed.
Lemma cn2_pos x : 0 <= cn2 x.
Proof. unfold cn2. nra. Qed.
Lemma cre_add a b : cre (a + b) = cadd (cre a) (cre b). Proof. cring. Qed.
Lemma cre_mul a b : cre (a * b) = cmul (cre a) (cre b). Proof. cring. Qed.
Lemma cre_sub a b : cre (a - b) = csub (cre a) (cre b). Proof. cring. Qed.
Lemma cre_opp a : cre (- a) = copp (cre a). Proof. cring. Qed.

(** ** tones *)
Lemma tone_add om x y n : tone om (cadd x y) n = tone om x n + tone om y n.
Proof. unfold tone, cadd. cbn [fst snd]. ring. Qed.
Lemma tone_sub om x y n : tone om (csub x y) n = tone om x n - tone om y n.
Proof. unfold tone, csub. cbn [fst snd]. ring. Qed.
Lemma tone_scale om a x n : tone om (cmul (cre a) x) n = a * tone om x n.
Proof. unfold tone, cmul, cre. cbn [fst snd]. ring. Qed.
Lemma tone_delay om w n : tone om w n = tone om (cmul (zi om) w) (S n).
Proof.
  unfold tone, cmul, zi. cbn [fst snd]. replace (om * INR n) with (om * INR (S n) - om) by (rewrite S_INR; ring).
  rewrite cos_minus, sin_minus. ring.
Qed.
Lemma tone_bound om w n : Rabs (tone om w n) <= Rabs (fst w) + Rabs (snd w).
Proof.
  unfold tone, Rminus. eapply Rle_trans; [apply Rabs_triang|]. rewrite Rabs_Ropp, !Rabs_mult.
  assert (A : Rabs (cos (om * INR n)) <= 1) by (apply Rabs_le, COS_bound).
  assert (B : Rabs (sin (om * INR n)) <= 1) by (apply Rabs_le, SIN_bound).
  pose proof (Rabs_pos (fst w)). pose proof (Rabs_pos (snd w)).
  assert (Rabs (fst w) * Rabs (cos (om * INR n)) <= Rabs (fst w) * 1) by (apply Rmult_le_compat_l; assumption).
  assert (Rabs (snd w) * Rabs (sin (om * INR n)) <= Rabs (snd w) * 1) by (apply Rmult_le_compat_l; assumption). lra.
Qed.

(** ** streams *)
Section Stream.
Context {St : Type} (step : St -> R -> R * St) (s0 : St) (x : nat -> R).
Fixpoint after (n : nat) : St := match n with O => s0 | S p => snd (step (after p) (x p)) end.
Definition out (n : nat) : R := fst (step (after n) (x n)).
Lemma run_stream N : run step s0 (map x (seq 0 N)) = (map out (seq 0 N), after N).
Proof.
  induction N as [|N IH]; [reflexivity|].
  rewrite seq_S, !map_app, run_app, IH. cbn [map run Nat.add fst snd after]. unfold out. destruct (step (after N) (x N)); reflexivity.
Qed.
Lemma response_out n : response step s0 x n = out n.
Proof.
  unfold response. rewrite run_stream. cbn [fst]. rewrite (nth_indep _ 0 (out 0)) by (rewrite map_length, seq_length; lia).
  rewrite map_nth, seq_nth by lia. reflexivity.
Qed.
End Stream.

(** ** settling *)
Lemma settles_from (e : nat -> R) (k : nat) : forall K rho, 0 <= rho < 1 -> (forall n, Rabs (e (k + n)%nat) <= K * rho ^ n) ->
  exists K' rho', 0 <= rho' < 1 /\ forall n, Rabs (e n) <= K' * rho' ^ n.
Proof.
  revert e. induction k as [|k IH]; intros e K rho Hr H; [exists K, rho; auto|].
  destruct (IH e (Rmax (K * / ((1 + rho) / 2)) (Rabs (e k))) ((1 + rho) / 2)) as (K' & r' & A & B); [lra| |exists K', r'; auto].
  set (s := (1 + rho) / 2) in *. assert (Hs : 0 < s < 1) by (unfold s; lra). assert (HK : 0 <= K).
  { specialize (H 0%nat). rewrite pow_O in H. pose proof (Rabs_pos (e (S k + 0)%nat)). lra. }
  assert (HK2 : 0 <= K * / s) by (apply Rmult_le_pos; [exact HK|left; apply Rinv_0_lt_compat; lra]).
  intros [|n].
  - rewrite Nat.add_0_r, pow_O, Rmult_1_r. apply Rmax_r.
  - replace (k + S n)%nat with (S k + n)%nat by lia. eapply Rle_trans; [apply H|].
    apply Rle_trans with (K * / s * s ^ S n).
    + replace (K * / s * s ^ S n) with (K * s ^ n) by (cbn [pow]; field; lra).
      apply Rmult_le_compat_l; [exact HK|]. apply pow_incr. unfold s; lra.
    + apply Rmult_le_compat_r; [apply pow_le; lra|apply Rmax_l].
Qed.
Lemma geometric (V : nat -> R) s : 0 <= s -> (forall n, V (S n) <= s * V n) -> forall n, V n <= V 0%nat * s ^ n.
Proof.
  intros Hs H. induction n as [|n IH]; [cbn [pow]; lra|]. eapply Rle_trans; [apply H|]. cbn [pow].
  replace (V 0%nat * (s * s ^ n)) with (s * (V 0%nat * s ^ n)) by ring. apply Rmult_le_compat_l; assumption.
Qed.

(** ** the homogeneous recurrence of LowPass and HighPass *)
Section Hom3.
Variables t d : R.
Hypothesis Ht : 0 < t.
Hypothesis Hd : 0 <= d <= 1.
Let k := d + 1.
Let g := t ^ 3 + k * t ^ 2 + k * t + 1.
Variable e : nat -> R.
Hypothesis He : forall n, g * e (S (S (S n))) = (k * t ^ 2 + 2 * k * t + 3) * e (S (S n)) - (k * t + 3) * e (S n) + e n.
Let u n := (e (S (S n)) - 2 * e (S n) + e n + d * t * (e (S (S n)) - e (S n)) + t * t * e (S (S n))) / (t * t).
Let v n := (e (S n) - e n) / t.
Let E n := e (S n) * e (S n) + v n * v n.
Lemma hom_u n : (1 + t) * u (S n) = u n.
Proof.
  unfold u. specialize (He n). set (y0 := e (S (S (S n)))) in *. set (y1 := e (S (S n))) in *. set (y2 := e (S n)) in *. set (y3 := e n) in *.
  apply Rmult_eq_reg_r with (t * t); [|nra].
  replace ((1 + t) * ((y0 - 2 * y1 + y2 + d * t * (y0 - y1) + t * t * y0) / (t * t)) * (t * t))
    with ((1 + t) * (y0 - 2 * y1 + y2 + d * t * (y0 - y1) + t * t * y0)) by (field; lra).
  replace ((y1 - 2 * y2 + y3 + d * t * (y1 - y2) + t * t * y1) / (t * t) * (t * t))
    with (y1 - 2 * y2 + y3 + d * t * (y1 - y2) + t * t * y1) by (field; lra).
  unfold g, k in He. nra.
Qed.
Lemma hom_energy n : (1 + / 3 * (t * t)) * E (S n) <= e (S n) * e (S n) + (v n + t * u n) * (v n + t * u n).
Proof.
  unfold E. assert (Q : e (S (S n)) - t * v (S n) = e (S n)) by (unfold v; field; lra).
  assert (W : v (S n) * (1 + t * d) + t * e (S (S n)) = v n + t * u n) by (unfold v, u; field; lra).
  rewrite <- W. set (q := e (S (S n))) in *. set (w := v (S n)) in *. clearbody q w. rewrite <- Q.
  replace ((q - t * w) * (q - t * w) + (w * (1 + t * d) + t * q) * (w * (1 + t * d) + t * q))
      with ((q * q + w * w) + 2 * t * d * (w * w) + (t * t) * (w * w + (d * w + q) * (d * w + q))) by ring.
  assert (A1 : 0 <= t * d * (w * w)) by (apply Rmult_le_pos; [apply Rmult_le_pos; lra|nra]).
  assert (A2 : / 3 * (q * q + w * w) <= w * w + (d * w + q) * (d * w + q)).
  { pose proof (Rle_0_sqr (q + 3 / 2 * d * w)) as S. unfold Rsqr in S.
    assert (0 <= (1 - d) * (w * w)) by (apply Rmult_le_pos; [lra|nra]).
    assert (d * d <= 1) by nra. assert (0 <= (1 - d * d) * (w * w)) by (apply Rmult_le_pos; [lra|nra]). nra. }
  assert (A3 : (t * t) * (/ 3 * (q * q + w * w)) <= (t * t) * (w * w + (d * w + q) * (d * w + q))) by (apply Rmult_le_compat_l; [nra|exact A2]).
  lra.
Qed.
Lemma norm_triangle a b c : sqrt (a * a + (b + c) * (b + c)) <= sqrt (a * a + b * b) + Rabs c.
Proof.
  set (N := sqrt (a * a + b * b)). assert (N0 : 0 <= N) by apply sqrt_pos. assert (NN : N * N = a * a + b * b) by (apply sqrt_sqrt; nra).
  pose proof (Rabs_pos c) as C0. assert (CC : Rabs c * Rabs c = c * c) by (rewrite <- Rabs_mult; apply Rabs_pos_eq; nra).
  rewrite <- (sqrt_square (N + Rabs c)) by lra. apply sqrt_le_1;
    [apply Rplus_le_le_0_compat; apply Rle_0_sqr|apply Rle_0_sqr|].
  assert (BN : Rabs b <= N). { rewrite <- (sqrt_square (Rabs b)) by apply Rabs_pos. apply sqrt_le_1; try nra; try (pose proof (Rabs_pos b); nra).
    rewrite <- Rabs_mult, Rabs_pos_eq by nra. nra. }
  assert (b * c <= N * Rabs c).
  { eapply Rle_trans; [apply Rle_abs|]. rewrite Rabs_mult. apply Rmult_le_compat_r; assumption. }
  replace (a * a + (b + c) * (b + c)) with (a * a + b * b + 2 * (b * c) + c * c) by ring.
  replace ((N + Rabs c) * (N + Rabs c)) with (N * N + 2 * (N * Rabs c) + Rabs c * Rabs c) by ring. lra.
Qed.
Let rho := / sqrt (1 + / 3 * (t * t)).
Lemma hom_rho : 0 < rho < 1 /\ 1 < rho * (1 + t).
Proof.
  assert (P : 1 < 1 + / 3 * (t * t)) by nra. assert (S1 : 1 < sqrt (1 + / 3 * (t * t))) by (rewrite <- sqrt_1 at 1; apply sqrt_lt_1; lra).
  unfold rho. split; [split; [apply Rinv_0_lt_compat; lra|]|].
  { apply Rmult_lt_reg_l with (sqrt (1 + / 3 * (t * t))); [lra|]. rewrite Rinv_r by lra. lra. }
  assert (S2 : sqrt (1 + / 3 * (t * t)) < 1 + t) by (rewrite <- (sqrt_square (1 + t)) by lra; apply sqrt_lt_1; nra).
  apply Rmult_lt_reg_l with (sqrt (1 + / 3 * (t * t))); [lra|].
  rewrite <- (Rmult_assoc _ (/ _)), Rinv_r by lra. lra.
Qed.
Lemma hom_norm n : sqrt (E (S n)) <= rho * (sqrt (E n) + t * Rabs (u n)).
Proof.
  pose proof (hom_energy n) as H. assert (P : 1 < 1 + / 3 * (t * t)) by nra.
  assert (S1 : 1 < sqrt (1 + / 3 * (t * t))) by (rewrite <- sqrt_1 at 1; apply sqrt_lt_1; lra).
  assert (E0 : forall m, 0 <= E m) by (intro m; unfold E; nra).
  apply Rmult_le_reg_l with (sqrt (1 + / 3 * (t * t))); [lra|]. unfold rho.
  rewrite <- (Rmult_assoc _ (/ _)), Rinv_r, Rmult_1_l by lra.
  rewrite <- sqrt_mult by (try apply E0; lra). eapply Rle_trans; [apply sqrt_le_1; [|apply Rplus_le_le_0_compat; apply Rle_0_sqr|exact H]|].
  - apply Rmult_le_pos; [lra|apply E0].
  - eapply Rle_trans; [apply norm_triangle|]. rewrite Rabs_mult, (Rabs_pos_eq t) by lra. unfold E. lra.
Qed.
Lemma hom3_settles : exists K r, 0 <= r < 1 /\ forall n, Rabs (e n) <= K * r ^ n.
Proof.
  destruct hom_rho as [R1 R2]. set (K := rho * t * (1 + t) / (rho * (1 + t) - 1)).
  assert (K0 : 0 <= K). { unfold K, Rdiv. apply Rmult_le_pos; [apply Rmult_le_pos; [nra|lra]|]. left. apply Rinv_0_lt_compat. lra. }
  assert (KE : rho * t + K / (1 + t) = rho * K) by (unfold K; field; lra).
  pose (V n := sqrt (E n) + K * Rabs (u n)).
  assert (G : forall n, V n <= V 0%nat * rho ^ n).
  { apply geometric; [lra|]. intro n. unfold V. pose proof (hom_norm n) as H. pose proof (hom_u n) as U.
    assert (UA : Rabs (u (S n)) = Rabs (u n) / (1 + t)).
    { rewrite <- U, Rabs_mult, (Rabs_pos_eq (1 + t)) by lra. field. lra. }
    rewrite UA. replace (rho * (sqrt (E n) + K * Rabs (u n))) with (rho * sqrt (E n) + (rho * K) * Rabs (u n)) by ring. rewrite <- KE.
    replace ((rho * t + K / (1 + t)) * Rabs (u n)) with (rho * t * Rabs (u n) + K * (Rabs (u n) / (1 + t))) by (field; lra). lra. }
  apply (settles_from e 1 (V 0%nat) rho); [lra|]. intro n. eapply Rle_trans; [|apply G]. unfold V. cbn [Nat.add].
  assert (0 <= K * Rabs (u n)) by (apply Rmult_le_pos; [exact K0|apply Rabs_pos]).
  assert (A : Rabs (e (S n)) <= sqrt (E n)); [|lra].
  rewrite <- (sqrt_square (Rabs (e (S n)))) by apply Rabs_pos. rewrite <- Rabs_mult, Rabs_pos_eq by nra.
  apply sqrt_le_1; unfold E; nra.
Qed.
End Hom3.

(** ** the homogeneous recurrence of BandPass *)
Lemma hom2_settles bl bh (e : nat -> R) : -1 < bl < 1 -> -1 < bh < 1 ->
  (forall n, e (S (S n)) = (bl + bh) * e (S n) - bl * bh * e n) -> exists K r, 0 <= r < 1 /\ forall n, Rabs (e n) <= K * r ^ n.
Proof.
  intros Hl Hh He. set (m := Rmax (Rabs bl) (Rabs bh)). assert (M : 0 <= m < 1).
  { unfold m. split; [eapply Rle_trans; [apply Rabs_pos|apply Rmax_l]|]. apply Rmax_lub_lt; apply Rabs_def1; lra. }
  assert (ML : Rabs bl <= m) by apply Rmax_l. assert (MH : Rabs bh <= m) by apply Rmax_r.
  set (s := (1 + m) / 2). assert (Hs : m < s < 1) by (unfold s; lra).
  pose (f n := e (S n) - bh * e n). assert (F : forall n, f (S n) = bl * f n) by (intro n; unfold f; rewrite He; ring).
  pose (V n := Rabs (e n) + / (s - m) * Rabs (f n)). assert (I : 0 < / (s - m)) by (apply Rinv_0_lt_compat; lra).
  assert (G : forall n, V n <= V 0%nat * s ^ n).
  { apply geometric; [lra|]. intro n. unfold V. rewrite F. rewrite Rabs_mult.
    assert (EN : Rabs (e (S n)) <= m * Rabs (e n) + Rabs (f n)).
    { replace (e (S n)) with (bh * e n + f n) by (unfold f; ring). eapply Rle_trans; [apply Rabs_triang|]. rewrite Rabs_mult.
      apply Rplus_le_compat_r, Rmult_le_compat_r; [apply Rabs_pos|exact MH]. }
    pose proof (Rabs_pos (e n)) as E0. pose proof (Rabs_pos (f n)) as F0.
    assert (A : Rabs bl * Rabs (f n) <= m * Rabs (f n)) by (apply Rmult_le_compat_r; assumption).
    assert (B : / (s - m) * (Rabs bl * Rabs (f n)) <= / (s - m) * (m * Rabs (f n))) by (apply Rmult_le_compat_l; lra).
    assert (D : Rabs (f n) = / (s - m) * ((s - m) * Rabs (f n))) by (field; lra).
    assert (m * Rabs (e n) <= s * Rabs (e n)) by (apply Rmult_le_compat_r; lra).
    replace (s * (Rabs (e n) + / (s - m) * Rabs (f n))) with (s * Rabs (e n) + (/ (s - m) * (m * Rabs (f n)) + / (s - m) * ((s - m) * Rabs (f n)))) by (field; lra).
    lra. }
  exists (V 0%nat), s. split; [lra|]. intro n. eapply Rle_trans; [|apply G]. unfold V.
  assert (0 <= / (s - m) * Rabs (f n)) by (apply Rmult_le_pos; [lra|apply Rabs_pos]). lra.
Qed.
