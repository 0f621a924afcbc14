(** * Chords and repeating waveforms through a chain of linear modifiers *)
From Coq Require Import ZArith List Bool Reals Lra Lia.
From Flocq Require Import Core.Core IEEE754.BinarySingleNaN.
From Verif Require Import Model.Floats Model.Utils Model.Generators Model.Modifiers Model.Filters Model.Sounds Model.Parts
  Spec.Libm Spec.Response Spec.Track Spec.SoundSpec Spec.Parts Spec.Chain Spec.Convolve Spec.Chord
  Proof.FloatFacts Proof.FormatsP Proof.SoundsP Proof.SoundsP2 Proof.SoundsP3 Proof.PartsP Proof.ChainP Proof.ChainP3 Proof.ChainP4 Proof.ConvolveP Proof.ConvolveP2 Proof.ConvolveP3.
Import ListNotations.
Local Open Scope R_scope.

(** ** chords *)
Lemma conv_zero h n : conv h (fun _ => 0) n = 0.
Proof. unfold conv. induction n as [|n IH]; cbn [sum_f_R0]; [ring|]. assert (A : forall k, sum_f_R0 (fun k => h k * 0) k = 0) by (induction k as [|k IK]; cbn [sum_f_R0]; [ring|rewrite IK; ring]). rewrite A. ring. Qed.
Lemma settles_add y z y' z' : settles y z -> settles y' z' -> settles (fun n => y n + y' n) (fun n => z n + z' n).
Proof.
  intros A B. eapply settles_le; [apply (settles_sum _ _ _ _ A B)|]. intro n. cbn beta.
  replace (y n + y' n - (z n + z' n)) with ((y n - z n) + (y' n - z' n)) by ring. apply Rabs_triang.
Qed.
Lemma settles_ext y y' z z' : (forall n, y n = y' n) -> (forall n, z n = z' n) -> settles y z -> settles y' z'.
Proof. intros E F (K & r & H & B). exists K, r. split; [exact H|]. intro n. rewrite <- E, <- F. apply B. Qed.
Lemma chord_settles m ps ts : (forall p, In p ps -> l_ok m p) -> settles (conv (chain_h m ps) (chord ts)) (chord (chord_thru m ps ts)).
Proof.
  intro OK. induction ts as [|[om w] ts IH].
  - exists 0, 0. split; [lra|]. intro n. unfold chord. cbn [fold_right chord_thru map]. rewrite conv_zero, Rminus_0_r, Rabs_R0. lra.
  - pose proof (settles_add _ _ _ _ (chain_responds m ps OK om w) IH) as S1. eapply settles_ext; [| |exact S1]; intro n; cbn beta.
    + rewrite <- (Rmult_1_l (conv (chain_h m ps) (chord ts) n)), <- conv_lin. apply conv_ext; [reflexivity|]. intros k _. unfold chord. cbn [fold_right fst snd]. ring.
    + unfold chord at 2. cbn [chord_thru map fold_right fst snd]. fold (chord_thru m ps ts). rewrite (chain_w_mul m ps om w). reflexivity.
Qed.
Theorem chord_passes m ps : cos_accurate m -> pow_int_accurate m -> tan_accurate m -> (forall p, In p ps -> l_ok m p) ->
  forall ts, exists K rho, 0 <= K /\ 0 <= rho < 1 /\ forall eps X xs, 0 <= eps -> bpow radix2 (-100) <= X -> chain_amp m ps X <= bpow radix2 90 -> near_signal (chord ts) eps X xs ->
  exists ys, pipeline (b_prime kit kit_prime) (b_process kit (kit_process m)) (map (chain_block m) ps) xs = Ok ys /\ length ys = length xs /\
    ends_up (chord (chord_thru m ps ts)) (chain_err m ps eps X) K rho ys.
Proof.
  intros HC HP HT OK ts. destruct (settles_K _ _ (chord_settles m ps ts OK)) as (K & rho & K0 & R0 & S1). exists K, rho. split; [exact K0|]. split; [exact R0|].
  intros eps X xs He HX HA N. destruct (chain_convolves m ps HC HP HT OK _ eps X xs He HX HA N) as (ys & E & L & NY). exists ys. split; [exact E|]. split; [exact L|].
  intros i y Hi. destruct (NY i y Hi) as (F & _ & B). split; [exact F|]. specialize (S1 i). apply Rabs_le_inv in B. apply Rabs_le_inv in S1. apply Rabs_le. lra.
Qed.

(** ** limits of sequences with geometric steps *)
Lemma geo_far (v : nat -> R) M r : 0 <= M -> 0 <= r < 1 -> (forall j, Rabs (v (S j) - v j) <= M * r ^ j) -> forall k j, Rabs (v (j + k)%nat - v j) <= M * r ^ j / (1 - r).
Proof.
  intros HM Hr HV. assert (G : forall k j, Rabs (v (j + k)%nat - v j) <= M * r ^ j * ((1 - r ^ k) / (1 - r))).
  { induction k as [|k IH]; intro j.
    - rewrite Nat.add_0_r, Rminus_diag_eq, Rabs_R0 by reflexivity. cbn [pow]. unfold Rdiv. rewrite Rminus_diag_eq, Rmult_0_l, Rmult_0_r by reflexivity. lra.
    - specialize (IH (S j)). replace (j + S k)%nat with (S j + k)%nat by lia. specialize (HV j).
      replace (v (S j + k)%nat - v j) with ((v (S j + k)%nat - v (S j)) + (v (S j) - v j)) by ring. eapply Rle_trans; [apply Rabs_triang|].
      replace (M * r ^ j * ((1 - r ^ S k) / (1 - r))) with (M * r ^ S j * ((1 - r ^ k) / (1 - r)) + M * r ^ j) by (cbn [pow]; field; lra). lra. }
  intros k j. eapply Rle_trans; [apply G|]. unfold Rdiv. rewrite <- Rmult_assoc. apply Rmult_le_compat_r; [left; apply Rinv_0_lt_compat; lra|].
  assert (0 <= r ^ k) by (apply pow_le; lra). assert (0 <= M * r ^ j) by (apply Rmult_le_pos; [exact HM|apply pow_le; lra]).
  rewrite <- (Rmult_1_r (M * r ^ j)) at 2. apply Rmult_le_compat_l; lra.
Qed.
Lemma geo_cauchy (v : nat -> R) M r : 0 <= M -> 0 <= r < 1 -> (forall j, Rabs (v (S j) - v j) <= M * r ^ j) -> Cauchy_crit v.
Proof.
  intros HM Hr HV eps He. assert (Q : 0 < eps * (1 - r) / (2 * (M + 1))) by (apply Rdiv_lt_0_compat; [apply Rmult_lt_0_compat; lra|lra]).
  destruct (pow_lt_1_zero r ltac:(rewrite Rabs_pos_eq; lra) _ Q) as [N HN]. exists N.
  assert (D : M * r ^ N / (1 - r) < eps / 2).
  { specialize (HN N (Nat.le_refl N)). rewrite Rabs_pos_eq in HN by (apply pow_le; lra). apply Rmult_lt_reg_r with (1 - r); [lra|]. unfold Rdiv at 1. rewrite Rmult_assoc, Rinv_l, Rmult_1_r by lra.
    apply Rle_lt_trans with ((M + 1) * r ^ N); [apply Rmult_le_compat_r; [apply pow_le; lra|lra]|].
    apply Rlt_le_trans with ((M + 1) * (eps * (1 - r) / (2 * (M + 1)))); [apply Rmult_lt_compat_l; lra|]. right. field. lra. }
  intros a b Ha Hb. unfold R_dist. pose proof (geo_far v M r HM Hr HV (a - N) N) as A. pose proof (geo_far v M r HM Hr HV (b - N) N) as B.
  replace (N + (a - N))%nat with a in A by lia. replace (N + (b - N))%nat with b in B by lia.
  replace (v a - v b) with ((v a - v N) + - (v b - v N)) by ring. eapply Rle_lt_trans; [apply Rabs_triang|]. rewrite Rabs_Ropp. lra.
Qed.
Lemma cv_close (v : nat -> R) l c e : Un_cv v l -> (forall j, Rabs (v j - c) <= e) -> Rabs (l - c) <= e.
Proof.
  intros CV B. destruct (Rle_lt_dec (Rabs (l - c)) e) as [H | H]; [exact H|exfalso]. destruct (CV (Rabs (l - c) - e) ltac:(lra)) as [N HN]. specialize (HN N (Nat.le_refl N)). unfold R_dist in HN.
  specialize (B N). replace (l - c) with (- (v N - l) + (v N - c)) in H, HN at 1 by ring. pose proof (Rabs_triang (- (v N - l)) (v N - c)) as T. rewrite Rabs_Ropp in T.
  replace (- (v N - l) + (v N - c)) with (l - c) in * by ring. lra.
Qed.
Lemma cv_unique_scaled (v w : nat -> R) s l l' : Un_cv v l -> Un_cv w l' -> (forall j, w j = s * v (S j)) -> l' = s * l.
Proof.
  intros A B E. apply (UL_sequence w); [exact B|]. assert (C1 : Un_cv (fun j => v (S j)) l) by (intros e He; destruct (A e He) as [N HN]; exists N; intros n Hn; apply HN; lia).
  assert (C2 : Un_cv (fun _ : nat => s) s) by (intros e He; exists 0%nat; intros n _; unfold R_dist; rewrite Rminus_diag_eq, Rabs_R0 by reflexivity; exact He).
  intros e He. destruct (CV_mult _ _ _ _ C2 C1 e He) as [N HN]. exists N. intros n Hn. rewrite E. apply HN, Hn.
Qed.

(** ** repeating waveforms *)
Lemma pow_sq s j : s * s = 1 -> Rabs (s ^ j) = 1.
Proof.
  intro H. assert (A : Rabs s = 1). { assert (Q : Rabs s * Rabs s = 1) by (rewrite <- Rabs_mult, H, Rabs_R1; reflexivity). pose proof (Rabs_pos s). nra. }
  rewrite <- RPow_abs, A, pow1. reflexivity.
Qed.
Section Repeat.
Variables (h x : nat -> R) (P : nat) (s A K rho : R).
Hypotheses (HP : (0 < P)%nat) (HS : s * s = 1) (HX : repeats P s x) (HA : forall n, Rabs (x n) <= A) (HK : 0 <= K) (HR : 0 < rho < 1) (HD : forall n, Rabs (h n) <= K * rho ^ n).
Lemma step_close n : Rabs (conv h x (n + P) - s * conv h x n) <= INR P * (A * K) * rho ^ n.
Proof.
  unfold conv. assert (A0 : 0 <= A) by (specialize (HA 0%nat); pose proof (Rabs_pos (x 0%nat)); lra).
  rewrite (tech2 (fun k => h k * x (n + P - k)%nat) n (n + P)) by lia.
  replace (sum_f_R0 (fun k => h k * x (n + P - k)%nat) n) with (s * sum_f_R0 (fun k => h k * x (n - k)%nat) n).
  2: { rewrite scal_sum. apply sum_eq. intros i Hi. replace (n + P - i)%nat with (n - i + P)%nat by lia. rewrite HX. ring. }
  match goal with |- Rabs ?e <= _ => replace e with (sum_f_R0 (fun i => h (S n + i)%nat * x (n + P - (S n + i))%nat) (n + P - S n)) by ring end.
  eapply Rle_trans; [apply Rsum_abs|]. apply Rle_trans with (sum_f_R0 (fun _ => A * K * rho ^ n) (n + P - S n)).
  - apply sum_Rle. intros i _. rewrite Rabs_mult, (Rmult_comm (Rabs (h _))), Rmult_assoc. apply Rmult_le_compat; try apply Rabs_pos; [apply HA|]. eapply Rle_trans; [apply HD|].
    apply Rmult_le_compat_l; [exact HK|]. replace (S n + i)%nat with (n + S i)%nat by lia. rewrite pow_add. rewrite <- (Rmult_1_r (rho ^ n)) at 2. apply Rmult_le_compat_l; [apply pow_le; lra|].
    rewrite <- (pow1 (S i)). apply pow_incr. lra.
  - rewrite sum_cte. replace (S (n + P - S n)) with P by lia. right. ring.
Qed.
Definition unrolled (n j : nat) : R := s ^ j * conv h x (n + j * P).
Lemma unrolled_step n j : Rabs (unrolled n (S j) - unrolled n j) <= INR P * (A * K) * rho ^ n * rho ^ j.
Proof.
  unfold unrolled. replace (n + S j * P)%nat with (n + j * P + P)%nat by (cbn [Nat.mul]; lia). cbn [pow].
  replace (s * s ^ j * conv h x (n + j * P + P) - s ^ j * conv h x (n + j * P)) with (s ^ j * s * (conv h x (n + j * P + P) - s * conv h x (n + j * P))).
  2: { transitivity (s * s ^ j * conv h x (n + j * P + P) - s ^ j * (s * s) * conv h x (n + j * P)); [ring|rewrite HS; ring]. }
  rewrite Rabs_mult. assert (E1 : Rabs (s ^ j * s) = 1) by (replace (s ^ j * s) with (s ^ S j) by (cbn [pow]; ring); apply pow_sq, HS). rewrite E1, Rmult_1_l.
  eapply Rle_trans; [apply step_close|]. rewrite (Rmult_assoc _ (rho ^ n)), <- pow_add. apply Rmult_le_compat_l.
  - apply Rmult_le_pos; [apply pos_INR|]. apply Rmult_le_pos; [specialize (HA 0%nat); pose proof (Rabs_pos (x 0%nat)); lra|exact HK].
  - replace (n + j * P)%nat with (n + j + (j * P - j))%nat by nia. rewrite pow_add. rewrite <- (Rmult_1_r (rho ^ (n + j))) at 2. apply Rmult_le_compat_l; [apply pow_le; lra|].
    rewrite <- (pow1 (j * P - j)). apply pow_incr. lra.
Qed.
Lemma MP n : 0 <= INR P * (A * K) * rho ^ n.
Proof. apply Rmult_le_pos; [|apply pow_le; lra]. apply Rmult_le_pos; [apply pos_INR|]. apply Rmult_le_pos; [specialize (HA 0%nat); pose proof (Rabs_pos (x 0%nat)); lra|exact HK]. Qed.
Definition steady (n : nat) : R := proj1_sig (R_complete (unrolled n) (geo_cauchy _ _ rho (MP n) ltac:(lra) (unrolled_step n))).
Lemma steady_cv n : Un_cv (unrolled n) (steady n).
Proof. unfold steady. destruct (R_complete _ _) as [l H]. exact H. Qed.
Lemma steady_repeats : repeats P s steady.
Proof.
  intro n. apply (cv_unique_scaled _ _ s _ _ (steady_cv n) (steady_cv (n + P))). intro j. unfold unrolled.
  replace (n + S j * P)%nat with (n + P + j * P)%nat by (cbn [Nat.mul]; lia). cbn [pow]. transitivity (s * s * s ^ j * conv h x (n + P + j * P)); [rewrite HS; ring|ring].
Qed.
Lemma steady_close n : Rabs (conv h x n - steady n) <= INR P * (A * K) / (1 - rho) * rho ^ n.
Proof.
  rewrite Rabs_minus_sym. apply (cv_close _ _ _ _ (steady_cv n)). intro j. pose proof (geo_far (unrolled n) _ rho (MP n) ltac:(lra) (unrolled_step n) j 0) as G.
  cbn [Nat.add] in G. unfold unrolled at 2 in G. cbn [pow Nat.mul] in G. rewrite Rmult_1_l, Nat.add_0_r, Rmult_1_r in G. eapply Rle_trans; [exact G|]. right. field. lra.
Qed.
Lemma steady_bound G : (forall n, Rabs (conv h x n) <= G * A) -> forall n, Rabs (steady n) <= G * A.
Proof.
  intros B n. rewrite <- (Rminus_0_r (steady n)). apply (cv_close _ _ _ _ (steady_cv n)). intro j. rewrite Rminus_0_r. unfold unrolled. rewrite Rabs_mult, (pow_sq s j HS), Rmult_1_l. apply B.
Qed.
End Repeat.
