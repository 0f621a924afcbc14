(** * Transfer functions of LowPass, HighPass and BandPass in exact arithmetic; their magnitudes *)
From Coq Require Import ZArith List Bool Reals Lra Lia Psatz.
From Verif Require Import Model.Modifiers Model.Filters Spec.Response Proof.GenericP Proof.FiltersP Proof.FiltersP2 Proof.BandPassP Proof.ResponseP.
Import ListNotations.
Local Open Scope R_scope.

Lemma k_of_d r : k_of r = d_of r + 1.
Proof. unfold k_of, d_of. ring. Qed.
Lemma rad_t f : rad f = t_of f.
Proof. reflexivity. Qed.

(** ** the denominator *)
Lemma butter_fact d s : butter (d + 1) s = cmul (cadd s (cre 1)) (cadd (cadd (cmul s s) (cmul (cre d) s)) (cre 1)).
Proof. unfold butter. rewrite cre_add. ring. Qed.
(** squared modulus of the denominator, in terms of m2 = |s|^2 *)
Definition den2 (t d m2 : R) : R :=
  (m2 + t * m2 + 1) * ((m2 - 1) * (m2 - 1) + d * d * m2 + d * t * m2 * (m2 + 1) + t * t * (m2 * m2)).
Definition m2_of (t om : R) : R := 2 * (1 - cos om) / (t * t).
Lemma s_of_parts t om : t <> 0 -> fst (s_of t om) = t * m2_of t om / 2 /\ cn2 (s_of t om) = m2_of t om.
Proof.
  intro Ht. unfold s_of, m2_of. split.
  - unfold cmul, cre, csub, zi. cbn [fst snd]. field. exact Ht.
  - rewrite cn2_mul, cn2_cre. unfold cn2, csub, cre, zi. cbn [fst snd].
    pose proof (sin2_cos2 om) as S. unfold Rsqr in S.
    replace ((1 - cos om) * (1 - cos om) + (0 - - sin om) * (0 - - sin om)) with (1 - 2 * cos om + (sin om * sin om + cos om * cos om)) by ring.
    rewrite S. field. exact Ht.
Qed.
Lemma butter_den2 t d om : t <> 0 -> cn2 (butter (d + 1) (s_of t om)) = den2 t d (m2_of t om).
Proof.
  intro Ht. destruct (s_of_parts t om Ht) as [A M]. rewrite butter_fact, cn2_mul. unfold den2. rewrite <- M. rewrite <- M in A.
  destruct (s_of t om) as [a b]. unfold cn2, cadd, cmul, cre in *. cbn [fst snd] in *.
  assert (TB : t * (a * a + b * b) = 2 * a) by lra. clear A M.
  replace (t * t * ((a * a + b * b) * (a * a + b * b))) with ((t * (a * a + b * b)) * (t * (a * a + b * b))) by ring.
  replace (d * t * (a * a + b * b) * (a * a + b * b + 1)) with (d * (t * (a * a + b * b)) * (a * a + b * b + 1)) by ring.
  rewrite TB. ring.
Qed.
Lemma m2_nonneg t om : t <> 0 -> 0 <= m2_of t om.
Proof. intro Ht. destruct (s_of_parts t om Ht) as [_ M]. rewrite <- M. apply cn2_pos. Qed.
Lemma den2_lower t d m2 : 0 < t -> 0 <= d -> 0 <= m2 ->
  (m2 + 1) * ((m2 - 1) * (m2 - 1) + d * d * m2 + t * t * (m2 * m2)) <= den2 t d m2.
Proof.
  intros Ht Hd Hm. unfold den2.
  assert (0 <= t * m2) by (apply Rmult_le_pos; lra). assert (0 <= d * (t * m2) * (m2 + 1)) by (apply Rmult_le_pos; [apply Rmult_le_pos|]; lra).
  assert (0 <= d * d * m2) by (apply Rmult_le_pos; [apply Rmult_le_pos|]; lra).
  assert (0 <= (m2 - 1) * (m2 - 1)) by apply Rle_0_sqr. assert (0 <= t * t * (m2 * m2)) by (apply Rmult_le_pos; apply Rle_0_sqr).
  replace (d * t * m2 * (m2 + 1)) with (d * (t * m2) * (m2 + 1)) by ring. apply Rmult_le_compat; lra.
Qed.
Lemma den2_pos t d m2 : 0 < t -> 0 <= d -> 0 <= m2 -> 0 < den2 t d m2.
Proof.
  intros Ht Hd Hm. eapply Rlt_le_trans; [|apply den2_lower; assumption].
  apply Rmult_lt_0_compat; [lra|]. assert (0 <= d * d * m2) by (apply Rmult_le_pos; [apply Rmult_le_pos|]; lra).
  destruct (Req_dec m2 0) as [->|N]; [lra|]. assert (0 < m2) by lra.
  assert (0 < t * t) by (apply Rmult_lt_0_compat; lra). assert (0 < m2 * m2) by (apply Rmult_lt_0_compat; lra).
  assert (0 < t * t * (m2 * m2)) by (apply Rmult_lt_0_compat; assumption).
  assert (0 <= (m2 - 1) * (m2 - 1)) by apply Rle_0_sqr. lra.
Qed.

(** ** LowPass and HighPass *)
Section Tone3.
Variables t d om : R.
Hypothesis Ht : 0 < t.
Hypothesis Hd : 0 <= d <= 1.
Let k := d + 1.
Let g := t ^ 3 + k * t ^ 2 + k * t + 1.
Let D := zi om.
Lemma char_poly W : csub (cmul (cre g) W) (cadd (csub (cmul (cre (k * t ^ 2 + 2 * k * t + 3)) (cmul D W)) (cmul (cre (k * t + 3)) (cmul D (cmul D W)))) (cmul D (cmul D (cmul D W))))
  = cmul (cre (t ^ 3)) (cmul (butter k (s_of t om)) W).
Proof.
  assert (S : csub (cre 1) D = cmul (cre t) (s_of t om)).
  { unfold s_of. fold D. transitivity (cmul (cre (t * / t)) (csub (cre 1) D)); [rewrite Rinv_r by lra; ring|rewrite cre_mul; ring]. }
  assert (DE : D = csub (cre 1) (cmul (cre t) (s_of t om))) by (rewrite <- S; ring).
  rewrite DE. generalize (s_of t om) as s. intro s. unfold butter, g. clear. destruct s as [a b]. destruct W as [p q].
  apply c_ext; unfold cmul, csub, cadd, cre; cbn [fst snd]; ring.
Qed.
Lemma butter_nz : cn2 (butter k (s_of t om)) <> 0.
Proof. unfold k. rewrite butter_den2 by lra. apply Rgt_not_eq, den2_pos; try lra. apply m2_nonneg. lra. Qed.
Lemma tone_rec W n : g * tone om W (S (S (S n))) - ((k * t ^ 2 + 2 * k * t + 3) * tone om W (S (S n)) - (k * t + 3) * tone om W (S n) + tone om W n)
  = t ^ 3 * tone om (cmul (butter k (s_of t om)) W) (S (S (S n))).
Proof.
  rewrite (tone_delay om W (S (S n))), (tone_delay om W (S n)), (tone_delay om (cmul (zi om) W) (S (S n))),
    (tone_delay om W n), (tone_delay om (cmul (zi om) W) (S n)), (tone_delay om (cmul (zi om) (cmul (zi om) W)) (S (S n))).
  rewrite <- !tone_scale, <- tone_sub, <- tone_add, <- tone_sub. fold D. rewrite char_poly. reflexivity.
Qed.
Lemma third_diff w n : tone om w (S (S (S n))) - 3 * tone om w (S (S n)) + 3 * tone om w (S n) - tone om w n
  = t ^ 3 * tone om (cmul (let s := s_of t om in cmul s (cmul s s)) w) (S (S (S n))).
Proof.
  rewrite (tone_delay om w (S (S n))), (tone_delay om w (S n)), (tone_delay om (cmul (zi om) w) (S (S n))),
    (tone_delay om w n), (tone_delay om (cmul (zi om) w) (S n)), (tone_delay om (cmul (zi om) (cmul (zi om) w)) (S (S n))).
  rewrite <- !tone_scale, <- tone_sub, <- tone_add, <- tone_sub. f_equal. cbv zeta.
  assert (S : csub (cre 1) (zi om) = cmul (cre t) (s_of t om)).
  { unfold s_of. transitivity (cmul (cre (t * / t)) (csub (cre 1) (zi om))); [rewrite Rinv_r by lra; ring|rewrite cre_mul; ring]. }
  assert (DE : zi om = csub (cre 1) (cmul (cre t) (s_of t om))) by (rewrite <- S; ring).
  rewrite DE at 1 2 3 4 5 6. generalize (s_of t om) as s. intro s. clear. destruct s as [a b]. destruct w as [p q].
  apply c_ext; unfold cmul, csub, cadd, cre; cbn [fst snd]; ring.
Qed.

Let c : coeffs R := mkC (t ^ 3 / g) ((k * t ^ 2 + 2 * k * t + 3) / g) ((- k * t - 3) / g) (1 / g).
Lemma lp_rec h x n : let y := out (lp_step Rplus Rmult c) h x in
  g * y (S (S (S n))) = t ^ 3 * x (S (S (S n))) + (k * t ^ 2 + 2 * k * t + 3) * y (S (S n)) - (k * t + 3) * y (S n) + y n.
Proof.
  cbv zeta. pose proof (lp_exact t d Ht Hd) as L. fold k g c in L.
  assert (A : forall m, after (lp_step Rplus Rmult c) h x (S m) =
    mkH (out (lp_step Rplus Rmult c) h x m) (h0 (after (lp_step Rplus Rmult c) h x m)) (h1 (after (lp_step Rplus Rmult c) h x m))) by reflexivity.
  unfold out at 1. specialize (L (after (lp_step Rplus Rmult c) h x (S (S (S n)))) (x (S (S (S n))))).
  destruct (lp_step Rplus Rmult c (after (lp_step Rplus Rmult c) h x (S (S (S n)))) (x (S (S (S n))))) as [y h']. destruct L as [L _].
  cbn [fst]. rewrite L, !A. cbn [h0 h1 h2]. reflexivity.
Qed.
Lemma lp_tone h w : settles (response (lp_step Rplus Rmult c) h (tone om w)) (tone om (cmul (cinv (butter k (s_of t om))) w)).
Proof.
  set (W := cmul (cinv (butter k (s_of t om))) w). set (y := out (lp_step Rplus Rmult c) h (tone om w)).
  assert (BW : cmul (butter k (s_of t om)) W = w).
  { unfold W. transitivity (cmul (cmul (butter k (s_of t om)) (cinv (butter k (s_of t om)))) w); [ring|]. rewrite cmul_inv by apply butter_nz. ring. }
  destruct (hom3_settles t d Ht Hd (fun n => y n - tone om W n)) as (K & r & R1 & R2).
  - intro n. cbv beta. fold k g. pose proof (lp_rec h (tone om w) n) as L. cbv zeta in L. fold y in L. pose proof (tone_rec W n) as T. rewrite BW in T. lra.
  - exists K, r. split; [exact R1|]. intro n. rewrite response_out. apply R2.
Qed.
(** any two states, any input: the difference of the responses dies out *)
Lemma lp_forget h h' x : settles (response (lp_step Rplus Rmult c) h x) (response (lp_step Rplus Rmult c) h' x).
Proof.
  destruct (hom3_settles t d Ht Hd (fun n => out (lp_step Rplus Rmult c) h x n - out (lp_step Rplus Rmult c) h' x n)) as (K & r & R1 & R2).
  - intro n. cbv beta. fold k g. pose proof (lp_rec h x n) as L. pose proof (lp_rec h' x n) as L'. cbv zeta in L, L'. lra.
  - exists K, r. split; [exact R1|]. intro n. rewrite !response_out. apply R2.
Qed.

Let hc : hpc R := mkHPC (mkC (1 / g) (- 3 / g) (3 / g) (- 1 / g)) ((k * t ^ 2 + 2 * k * t + 3) / g) ((- k * t - 3) / g) (1 / g).
Lemma hp_rec st x n : let y := out (hp_step Rplus Rmult hc) st x in
  g * y (S (S (S n))) = (x (S (S (S n))) - 3 * x (S (S n)) + 3 * x (S n) - x n) + (k * t ^ 2 + 2 * k * t + 3) * y (S (S n)) - (k * t + 3) * y (S n) + y n.
Proof.
  cbv zeta. pose proof (g_pos t d Ht Hd) as G. fold k g in G.
  assert (A : forall m, after (hp_step Rplus Rmult hc) st x (S m) =
    let '(xs, ys) := after (hp_step Rplus Rmult hc) st x m in
    (mkH (x m) (h0 xs) (h1 xs), mkH (out (hp_step Rplus Rmult hc) st x m) (h0 ys) (h1 ys))).
  { intro m. unfold out. cbn [after]. destruct (after (hp_step Rplus Rmult hc) st x m) as [xs ys]. reflexivity. }
  unfold out at 1. pose proof (A (S (S n))) as A2. pose proof (A (S n)) as A1. pose proof (A n) as A0.
  destruct (after (hp_step Rplus Rmult hc) st x n) as [xs0 ys0]. rewrite A0 in A1. cbv beta iota in A1. rewrite A1 in A2. rewrite A2. cbn [h0 h1 h2].
  unfold hp_step at 1, hp_out. cbn [fst h0 h1 h2 hc_a hc_b1 hc_b2 hc_b3 c0 c1 c2 c3 hc]. field. lra.
Qed.
Lemma hp_tone st w : settles (response (hp_step Rplus Rmult hc) st (tone om w))
  (tone om (cmul (let s := s_of t om in cdiv (cmul s (cmul s s)) (butter k s)) w)).
Proof.
  set (W := cmul _ w). set (y := out (hp_step Rplus Rmult hc) st (tone om w)).
  assert (BW : cmul (butter k (s_of t om)) W = cmul (let s := s_of t om in cmul s (cmul s s)) w).
  { unfold W. cbv zeta. unfold cdiv. transitivity (cmul (cmul (butter k (s_of t om)) (cinv (butter k (s_of t om)))) (cmul (cmul (s_of t om) (cmul (s_of t om) (s_of t om))) w)); [ring|].
    rewrite cmul_inv by apply butter_nz. ring. }
  destruct (hom3_settles t d Ht Hd (fun n => y n - tone om W n)) as (K & r & R1 & R2).
  - intro n. cbv beta. fold k g. pose proof (hp_rec st (tone om w) n) as L. cbv zeta in L. fold y in L. pose proof (tone_rec W n) as T. rewrite BW in T.
    rewrite third_diff in L. cbv zeta in *. lra.
  - exists K, r. split; [exact R1|]. intro n. rewrite response_out. apply R2.
Qed.
Lemma hp_forget st st' x : settles (response (hp_step Rplus Rmult hc) st x) (response (hp_step Rplus Rmult hc) st' x).
Proof.
  destruct (hom3_settles t d Ht Hd (fun n => out (hp_step Rplus Rmult hc) st x n - out (hp_step Rplus Rmult hc) st' x n)) as (K & r & R1 & R2).
  - intro n. cbv beta. fold k g. pose proof (hp_rec st x n) as L. pose proof (hp_rec st' x n) as L'. cbv zeta in L, L'. lra.
  - exists K, r. split; [exact R1|]. intro n. rewrite !response_out. apply R2.
Qed.
End Tone3.

Definition lpR (fc r : R) := lp_step Rplus Rmult (lp_coeffs AR (fun x : R => x) fc r).
Definition hpR (fc r : R) := hp_step Rplus Rmult (hp_coeffs AR (fun x : R => x) fc r).
Lemma lowpass_tone fc r om h w : 0 < fc -> 0 <= r <= 1 -> settles (response (lpR fc r) h (tone om w)) (tone om (cmul (lp_H fc r om) w)).
Proof.
  intros Hf Hr. unfold lpR, lp_H. rewrite (lp_coeffs_R fc r), k_of_d. change (rad fc) with (t_of fc). cbv zeta. apply lp_tone; [apply t_of_pos; exact Hf|apply d_of_range; exact Hr].
Qed.
Lemma lowpass_forget fc r h h' x : 0 < fc -> 0 <= r <= 1 -> settles (response (lpR fc r) h x) (response (lpR fc r) h' x).
Proof. intros Hf Hr. unfold lpR. rewrite (lp_coeffs_R fc r). cbv zeta. apply lp_forget; [apply t_of_pos; exact Hf|apply d_of_range; exact Hr]. Qed.
Lemma highpass_tone fc r om st w : 0 < fc -> 0 <= r <= 1 -> settles (response (hpR fc r) st (tone om w)) (tone om (cmul (hp_H fc r om) w)).
Proof.
  intros Hf Hr. unfold hpR, hp_H. rewrite (hp_coeffs_R fc r), k_of_d. change (rad fc) with (t_of fc). apply hp_tone; [apply t_of_pos; exact Hf|apply d_of_range; exact Hr].
Qed.
Lemma highpass_forget fc r st st' x : 0 < fc -> 0 <= r <= 1 -> settles (response (hpR fc r) st x) (response (hpR fc r) st' x).
Proof. intros Hf Hr. unfold hpR. rewrite (hp_coeffs_R fc r). cbv zeta. apply hp_forget; [apply t_of_pos; exact Hf|apply d_of_range; exact Hr]. Qed.
Lemma lp_H_mag fc r om : 0 < fc -> 0 <= r <= 1 -> cn2 (lp_H fc r om) = / den2 (t_of fc) (d_of r) (m2_of (t_of fc) om).
Proof.
  intros Hf Hr. pose proof (t_of_pos fc Hf) as T. pose proof (d_of_range r Hr) as Dr.
  unfold lp_H. rewrite k_of_d. change (rad fc) with (t_of fc). rewrite cn2_inv by (exact (butter_nz (t_of fc) (d_of r) om T Dr)). rewrite butter_den2 by lra. reflexivity.
Qed.
Lemma hp_H_mag fc r om : 0 < fc -> 0 <= r <= 1 -> cn2 (hp_H fc r om) = (m2_of (t_of fc) om) ^ 3 / den2 (t_of fc) (d_of r) (m2_of (t_of fc) om).
Proof.
  intros Hf Hr. pose proof (t_of_pos fc Hf) as T. pose proof (d_of_range r Hr) as Dr.
  unfold hp_H, cdiv. cbv zeta. rewrite k_of_d. change (rad fc) with (t_of fc). rewrite !cn2_mul, cn2_inv by (exact (butter_nz (t_of fc) (d_of r) om T Dr)).
  rewrite butter_den2 by lra.
  destruct (s_of_parts (t_of fc) om) as [_ ->]; [lra|]. unfold Rdiv. ring.
Qed.
