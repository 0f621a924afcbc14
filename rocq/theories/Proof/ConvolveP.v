(** * Convolution: uniqueness, algebra, Fourier sums *)
From Coq Require Import ZArith List Bool Reals Lra Lia Psatz.
From Flocq Require Import Core.Core IEEE754.BinarySingleNaN.
From Verif Require Import Model.Floats Model.Utils Model.Modifiers Model.Filters Spec.Response Spec.Track Spec.Comb Spec.Chain Spec.Convolve
  Proof.FloatFacts Proof.GenericP Proof.TrackP Proof.TrackP2 Proof.TrackP3 Proof.ModifiersP Proof.FilterNanP Proof.ResponseP Proof.ResponseP2 Proof.CombP Proof.ChainP Proof.ChainP2 Proof.ChainP3.
Import ListNotations.
Local Open Scope R_scope.

Lemma conv_ext h h' x x' n : (forall k, (k <= n)%nat -> h k = h' k) -> (forall k, (k <= n)%nat -> x k = x' k) -> conv h x n = conv h' x' n.
Proof. intros A B. unfold conv. apply sum_eq. intros k Hk. rewrite A, B by lia. reflexivity. Qed.
Lemma conv_S h x n : conv h x (S n) = x 0%nat * h (S n) + conv h (fun i => x (S i)) n.
Proof.
  unfold conv. rewrite tech5, Nat.sub_diag, Rplus_comm. f_equal; [ring|]. apply sum_eq. intros k Hk. replace (S n - k)%nat with (S (n - k)) by lia. reflexivity.
Qed.
Lemma conv_0 h x : conv h x 0 = x 0%nat * h 0%nat.
Proof. unfold conv. cbn [sum_f_R0]. rewrite Nat.sub_0_r. ring. Qed.
(** what works sample by sample like a convolution is one *)
Lemma conv_unique (T : (nat -> R) -> nat -> R) h : (forall x, T x 0%nat = x 0%nat * h 0%nat) ->
  (forall x n, T x (S n) = x 0%nat * h (S n) + T (fun i => x (S i)) n) -> forall n x, T x n = conv h x n.
Proof. intros A B. induction n as [|n IH]; intro x; [rewrite A, conv_0; reflexivity|]. rewrite B, conv_S, IH. reflexivity. Qed.
Lemma conv_comm h x n : conv h x n = conv x h n.
Proof.
  symmetry. apply (conv_unique (fun x n => conv x h n) h).
  - intro y. unfold conv. cbn [sum_f_R0]. rewrite Nat.sub_0_r. reflexivity.
  - intros y k. unfold conv. rewrite decomp_sum by lia. cbn [Nat.pred]. f_equal.
Qed.
Lemma conv_lin h x y c n : conv h (fun i => x i + c * y i) n = conv h x n + c * conv h y n.
Proof. unfold conv. rewrite scal_sum, <- plus_sum. apply sum_eq. intros. ring. Qed.
Lemma conv_assoc a b x n : conv (conv a b) x n = conv a (conv b x) n.
Proof.
  symmetry. revert n x. apply (conv_unique (fun x n => conv a (conv b x) n)).
  - intro x. rewrite !conv_0. ring.
  - intros x n. rewrite (conv_S a (conv b x)), (conv_0 b), (conv_S a b).
    rewrite (conv_ext a a (fun i => conv b x (S i)) (fun i => conv b (fun i => x (S i)) i + x 0%nat * b (S i)) n).
    + rewrite (conv_lin a (conv b (fun i => x (S i))) (fun i => b (S i)) (x 0%nat)). ring.
    + reflexivity.
    + intros k _. rewrite conv_S. ring.
Qed.
Lemma conv_impulse h n : conv h impulse n = h n.
Proof.
  rewrite conv_comm. unfold conv. destruct n as [|n]; [cbn; ring|]. rewrite decomp_sum by lia. cbn [impulse Nat.eqb Nat.sub Nat.pred].
  rewrite (sum_eq _ (fun _ => 0) n) by (intros; unfold impulse; cbn [Nat.eqb]; ring). rewrite sum_eq_R0 by reflexivity. unfold impulse. cbn [Nat.eqb]. ring.
Qed.
Lemma impulse_conv x n : conv impulse x n = x n.
Proof. rewrite conv_comm. apply conv_impulse. Qed.
Lemma conv_late d x : forall n, conv (late d) x n = if (n <? d)%nat then 0 else x (n - d)%nat.
Proof.
  intro n. symmetry. revert n x. apply (conv_unique (fun x n => if (n <? d)%nat then 0 else x (n - d)%nat)).
  - intro x. unfold late. destruct d as [|d]; cbn; ring.
  - intros x n. unfold late. destruct (Nat.ltb_spec (S n) d), (Nat.ltb_spec n d), (Nat.eqb_spec (S n) d); try lia; try ring.
    + subst d. rewrite Nat.sub_diag. ring.
    + replace (S n - d)%nat with (S (n - d)) by lia. ring.
Qed.
Definition echo_h (D : nat) (g : R) (n : nat) : R := if (n mod D =? 0)%nat then g ^ (n / D) else 0.
Lemma echo_h_step D g n : (0 < D)%nat -> echo_h D g (D + n) = g * echo_h D g n.
Proof.
  intro H. unfold echo_h. replace (D + n)%nat with (n + 1 * D)%nat by lia. rewrite Nat.mod_add, Nat.div_add by lia. rewrite Nat.add_1_r.
  destruct (n mod D =? 0)%nat; cbn [pow]; ring.
Qed.
Lemma echo_h_small D g n : (0 < n < D)%nat -> echo_h D g n = 0.
Proof. intro H. unfold echo_h. rewrite Nat.mod_small by lia. destruct (Nat.eqb_spec n 0); [lia|reflexivity]. Qed.
Lemma echo_h_0 D g : echo_h D g 0 = 1.
Proof. unfold echo_h. destruct D as [|D]; [reflexivity|]. rewrite Nat.mod_0_l, Nat.div_0_l by lia. reflexivity. Qed.
Lemma conv_echo D g : (0 < D)%nat -> forall n x, conv (echo_h D g) x n = comb D g x n.
Proof.
  intros HD n x. symmetry. revert n x. apply conv_unique.
  - intro x. rewrite comb_small by exact HD. rewrite echo_h_0. ring.
  - intros x n. revert x. induction n as [n IH] using lt_wf_ind. intro x. destruct (Nat.lt_ge_cases (S n) D) as [C|C].
    + rewrite !comb_small by lia. rewrite echo_h_small by lia. ring.
    + rewrite comb_rec by lia. replace (S n) with (D + (S n - D))%nat at 3 by lia. rewrite echo_h_step by exact HD. destruct (Nat.eq_dec (S n) D) as [E|E].
      * rewrite <- E, Nat.sub_diag. rewrite (comb_small _ _ _ 0), (comb_small _ _ _ n) by lia. rewrite echo_h_0. ring.
      * rewrite (comb_rec D g (fun i => x (S i)) n) by lia. replace (S n - D)%nat with (S (n - D)) by lia. rewrite (IH (n - D)%nat ltac:(lia) x). ring.
Qed.

(** ** machines *)
Section Machine.
Context {St : Type} (step : St -> R -> R * St) (add : St -> St -> St) (sc : R -> St -> St) (s0 : St).
Hypothesis L : forall c s s' x x', step (add s (sc c s')) (x + c * x') = (fst (step s x) + c * fst (step s' x'), add (snd (step s x)) (sc c (snd (step s' x')))).
Hypothesis Z : forall c, add s0 (sc c s0) = s0.
Hypothesis N : step s0 0 = (0, s0).
Lemma out_is_conv n x : out step s0 x n = conv (imp step s0) x n.
Proof.
  revert n x. apply conv_unique.
  - intro x. unfold out. cbn [after imp]. rewrite (first_step step add sc s0 L Z N). reflexivity.
  - intros x n. apply (out_conv step add sc s0 L Z N).
Qed.
Lemma imp_response n : response step s0 impulse n = imp step s0 n.
Proof. rewrite response_out, out_is_conv. apply conv_impulse. Qed.
Lemma machine_conv n x : out step s0 x n = conv (response step s0 impulse) x n.
Proof. rewrite out_is_conv. apply conv_ext; [intros; symmetry; apply imp_response|reflexivity]. Qed.
Lemma signal_list {SF} (fstep : SF -> f32 -> f32 * SF) (sf : SF) d G X :
  (forall xs, (forall z, In z xs -> fin z /\ Rabs (B2R z) <= X) ->
     Forall2 (fun y z => fin y /\ Rabs (B2R y - z) <= d * X) (fst (run fstep sf xs)) (fst (run step s0 (map B2R xs)))) ->
  (forall xs E, 0 <= E -> (forall z, In z xs -> Rabs z <= E) -> forall y, In y (fst (run step s0 xs)) -> Rabs y <= G * E) -> 0 <= X ->
  forall x eps xs, 0 <= eps -> near_signal x eps X xs -> near_signal (conv (response step s0 impulse) x) (d * X + G * eps) ((G + d) * X) (fst (run fstep sf xs)).
Proof.
  intros T B X0 x eps xs He HX.
  assert (TR := T xs ltac:(intros z Hz; apply In_nth_error in Hz; destruct Hz as [j Hj]; destruct (HX j z Hj) as (F & A & _); exact (conj F A))).
  intros j y Hy. set (n := length xs). assert (HL : (j < n)%nat).
  { assert (Q : nth_error (fst (run fstep sf xs)) j <> None) by congruence. apply nth_error_Some in Q. rewrite run_len in Q. exact Q. }
  assert (NY : nth j (fst (run fstep sf xs)) f0 = y) by (apply nth_error_nth; exact Hy).
  pose proof (Forall2_nth _ _ _ f0 0 TR j ltac:(rewrite run_len; exact HL)) as TJ. rewrite NY in TJ. destruct TJ as [FY EY].
  set (xr := fun i => nth i (map B2R xs) 0).
  assert (MX : map B2R xs = map xr (seq 0 n)).
  { apply nth_ext with 0 0; [rewrite !map_length, seq_length; reflexivity|]. intros i Hi. rewrite map_length in Hi.
    rewrite (nth_indep (map xr (seq 0 n)) 0 (xr 0%nat)) by (rewrite map_length, seq_length; exact Hi). rewrite map_nth, seq_nth by exact Hi. reflexivity. }
  assert (EJ : nth j (fst (run step s0 (map B2R xs))) 0 = out step s0 xr j).
  { rewrite MX, run_stream. cbn [fst]. rewrite (nth_indep _ 0 (out step s0 xr 0)) by (rewrite map_length, seq_length; exact HL). rewrite map_nth, seq_nth by exact HL. reflexivity. }
  assert (IJ : In (out step s0 xr j) (fst (run step s0 (map B2R xs)))) by (rewrite <- EJ; apply nth_In; rewrite run_len, map_length; exact HL).
  rewrite EJ in EY.
  assert (BX : Rabs (out step s0 xr j) <= G * X).
  { apply (B (map B2R xs) X X0); [|exact IJ]. intros z Hz. apply in_map_iff in Hz. destruct Hz as (v & <- & Hv). apply In_nth_error in Hv. destruct Hv as [i Hi]. apply (HX i v Hi). }
  set (e := fun i => if (i <? n)%nat then xr i - x i else 0).
  assert (HE : forall i, Rabs (e i) <= eps).
  { intro i. unfold e. destruct (Nat.ltb_spec i n) as [Hi|Hi]; [|rewrite Rabs_R0; lra].
    destruct (nth_error xs i) as [v|] eqn:Ex; [|apply nth_error_None in Ex; lia]. destruct (HX i v Ex) as (_ & _ & A).
    unfold xr. rewrite (nth_error_nth (map B2R xs) i 0 (map_nth_error B2R i xs Ex)). exact A. }
  assert (DE : out step s0 xr j = conv (response step s0 impulse) x j + out step s0 e j).
  { rewrite <- machine_conv, <- (out_add step add sc s0 L Z). apply out_ext. intros i Hi. unfold e. destruct (Nat.ltb_spec i n) as [Hi'|Hi']; [ring|lia]. }
  assert (BA : Rabs (out step s0 e j) <= G * eps).
  { apply (B (map e (seq 0 (S j))) eps He); [|apply out_in]. intros z Hz. apply in_map_iff in Hz. destruct Hz as (i & <- & _). apply HE. }
  apply Rabs_le_inv in EY. apply Rabs_le_inv in BX. apply Rabs_le_inv in BA.
  split; [exact FY|]. split; apply Rabs_le; [lra|]. rewrite DE in EY. lra.
Qed.
End Machine.

(** ** Fourier sums *)
Lemma fourier_S h om n : fourier h om (S n) = cadd (fourier h om n) (cmul (cre (h (S n))) (zi (om * INR (S n)))).
Proof. unfold fourier, cadd, cmul, cre, zi. cbn [fst snd]. rewrite !tech5. f_equal; ring. Qed.
Lemma tone_back om w n k : (k <= n)%nat -> tone om (cmul (zi (om * INR k)) w) n = tone om w (n - k).
Proof. intro H. replace n with (k + (n - k))%nat at 1 by lia. apply tone_delay. Qed.
Lemma tone_partial h om w n N : (n <= N)%nat -> sum_f_R0 (fun k => h k * tone om w (N - k)%nat) n = tone om (cmul (fourier h om n) w) N.
Proof.
  induction n as [|n IH]; intro H.
  - cbn [sum_f_R0]. rewrite Nat.sub_0_r. unfold fourier, cmul. cbn [sum_f_R0 fst snd INR]. rewrite Rmult_0_r, cos_0, sin_0. unfold tone. cbn [fst snd]. ring.
  - rewrite tech5, IH by lia. rewrite fourier_S. rewrite <- (tone_back om w N (S n) H).
    set (z := zi (om * INR (S n))). unfold tone, cmul, cadd, cre. cbn [fst snd]. ring.
Qed.
Lemma conv_tone h om w n : conv h (tone om w) n = tone om (cmul (fourier h om n) w) n.
Proof. apply tone_partial. lia. Qed.
Definition responds (h : nat -> R) (H : R -> C) : Prop := forall om w, settles (conv h (tone om w)) (tone om (cmul (H om) w)).
Definition transforms (h : nat -> R) (H : R -> C) : Prop :=
  forall om, settles (fun n => fst (fourier h om n)) (fun _ => fst (H om)) /\ settles (fun n => snd (fourier h om n)) (fun _ => snd (H om)).
Lemma settles_K y z : settles y z -> exists K rho, 0 <= K /\ 0 <= rho < 1 /\ forall n, Rabs (y n - z n) <= K * rho ^ n.
Proof.
  intros (K & r & Hr & B). exists K, r. split; [|split; [exact Hr|exact B]]. specialize (B 0%nat). cbn [pow] in B. pose proof (Rabs_pos (y 0%nat - z 0%nat)). lra.
Qed.
Lemma settles_sum y z y' z' : settles y z -> settles y' z' -> settles (fun n => Rabs (y n - z n) + Rabs (y' n - z' n)) (fun _ => 0).
Proof.
  intros A B. destruct (settles_K _ _ A) as (K1 & r1 & K10 & R1 & B1). destruct (settles_K _ _ B) as (K2 & r2 & K20 & R2 & B2).
  exists (K1 + K2), (Rmax r1 r2). pose proof (Rmax_l r1 r2). pose proof (Rmax_r r1 r2). assert (Rmax r1 r2 < 1) by (apply Rmax_lub_lt; lra). split; [lra|]. intro n.
  rewrite Rminus_0_r, Rabs_pos_eq by (apply Rplus_le_le_0_compat; apply Rabs_pos). specialize (B1 n). specialize (B2 n).
  assert (r1 ^ n <= Rmax r1 r2 ^ n) by (apply pow_incr; lra). assert (r2 ^ n <= Rmax r1 r2 ^ n) by (apply pow_incr; lra).
  assert (K1 * r1 ^ n <= K1 * Rmax r1 r2 ^ n) by (apply Rmult_le_compat_l; assumption). assert (K2 * r2 ^ n <= K2 * Rmax r1 r2 ^ n) by (apply Rmult_le_compat_l; assumption). lra.
Qed.
Lemma settles_le y z e : settles e (fun _ => 0) -> (forall n, Rabs (y n - z n) <= e n) -> settles y z.
Proof.
  intros (K & r & Hr & B) H. exists K, r. split; [exact Hr|]. intro n. eapply Rle_trans; [apply H|]. eapply Rle_trans; [apply Rle_abs|]. specialize (B n). rewrite Rminus_0_r in B. exact B.
Qed.
Lemma settles_scale e c : settles e (fun _ => 0) -> settles (fun n => c * e n) (fun _ => 0).
Proof.
  intro H. destruct (settles_K _ _ H) as (K & r & K0 & Hr & B). exists (Rabs c * K), r. split; [exact Hr|]. intro n. specialize (B n). rewrite Rminus_0_r in *. rewrite Rabs_mult, Rmult_assoc. apply Rmult_le_compat_l; [apply Rabs_pos|exact B].
Qed.
Lemma tone_sub om a b w n : tone om (cmul a w) n - tone om (cmul b w) n = tone om (cmul (csub a b) w) n.
Proof. unfold tone, cmul, csub. cbn [fst snd]. ring. Qed.
Lemma transforms_of h H : responds h H -> transforms h H.
Proof.
  intros R om. pose proof (settles_sum _ _ _ _ (R om (1, 0)) (R om (0, 1))) as S1.
  assert (E : forall n, let v := csub (fourier h om n) (H om) in Rabs (fst v) <= Rabs (tone om (cmul v (1, 0)) n) + Rabs (tone om (cmul v (0, 1)) n) /\
      Rabs (snd v) <= Rabs (tone om (cmul v (1, 0)) n) + Rabs (tone om (cmul v (0, 1)) n)).
  { intros n v. pose proof (sin2_cos2 (om * INR n)) as Q. unfold Rsqr in Q. pose proof (COS_bound (om * INR n)) as CB. pose proof (SIN_bound (om * INR n)) as SB.
    set (A := tone om (cmul v (1, 0)) n). set (B := tone om (cmul v (0, 1)) n).
    assert (EA : A = fst v * cos (om * INR n) - snd v * sin (om * INR n)) by (unfold A, tone, cmul; cbn [fst snd]; ring).
    assert (EB : B = - snd v * cos (om * INR n) - fst v * sin (om * INR n)) by (unfold B, tone, cmul; cbn [fst snd]; ring).
    set (c := cos (om * INR n)) in *. set (s := sin (om * INR n)) in *. clearbody A B c s. destruct v as [p q]. cbn [fst snd] in *.
    assert (EP : p = A * c - B * s) by (rewrite EA, EB; transitivity (p * (s * s + c * c)); [rewrite Q; ring|ring]).
    assert (EQ : q = - (A * s) - B * c) by (rewrite EA, EB; transitivity (q * (s * s + c * c)); [rewrite Q; ring|ring]).
    assert (M : forall a b, -1 <= b <= 1 -> Rabs (a * b) <= Rabs a) by (intros a b Hb; rewrite Rabs_mult; rewrite <- (Rmult_1_r (Rabs a)) at 2; apply Rmult_le_compat_l; [apply Rabs_pos|apply Rabs_le; lra]).
    pose proof (M A c CB) as M1. pose proof (M B s SB) as M2. pose proof (M A s SB) as M3. pose proof (M B c CB) as M4. apply Rabs_le_inv in M1, M2, M3, M4.
    split; apply Rabs_le; lra. }
  split; (eapply settles_le; [exact S1|]); intro n; cbn beta; rewrite !conv_tone, !tone_sub; apply (E n).
Qed.
Lemma responds_of h H : transforms h H -> responds h H.
Proof.
  intros T om w. destruct (T om) as [A B]. pose proof (settles_sum _ _ _ _ A B) as S1. apply (settles_scale _ (csum w)) in S1.
  eapply settles_le; [exact S1|]. intro n. cbn beta. rewrite conv_tone, tone_sub. eapply Rle_trans; [apply tone_csum|].
  unfold csum, cmul, csub. cbn [fst snd]. set (a := fst (fourier h om n) - fst (H om)). set (b := snd (fourier h om n) - snd (H om)). destruct w as [p q]. cbn [fst snd].
  pose proof (Rabs_triang (a * p) (- (b * q))) as T1. pose proof (Rabs_triang (a * q) (b * p)) as T2. rewrite Rabs_Ropp in T1. rewrite !Rabs_mult in *. unfold Rminus in *. lra.
Qed.
(** ** geometric decay, and chains *)
Lemma decays_of h H : transforms h H -> exists K rho, 0 <= K /\ 0 < rho < 1 /\ forall n, Rabs (h n) <= K * rho ^ n.
Proof.
  intro T. destruct (T 0) as [A _]. destruct (settles_K _ _ A) as (K & r & K0 & Hr & B). set (r' := Rmax r (/ 2)).
  assert (R1 : / 2 <= r') by apply Rmax_r. assert (R2 : r <= r') by apply Rmax_l. assert (R3 : r' < 1) by (apply Rmax_lub_lt; lra).
  exists (Rabs (h 0%nat) + 3 * K), r'. split; [pose proof (Rabs_pos (h 0%nat)); lra|]. split; [lra|]. intros [|n]; [cbn [pow]; lra|].
  pose proof (B n) as B0. pose proof (B (S n)) as B1. unfold fourier in B0, B1. cbn [fst] in B0, B1. rewrite tech5, Rmult_0_l, cos_0, Rmult_1_r in B1.
  assert (P1 : r ^ n <= r' ^ n) by (apply pow_incr; lra). assert (P2 : r ^ S n <= r' ^ S n) by (apply pow_incr; lra).
  assert (Q1 : K * r ^ n <= K * r' ^ n) by (apply Rmult_le_compat_l; assumption). assert (Q2 : K * r ^ S n <= K * r' ^ S n) by (apply Rmult_le_compat_l; assumption).
  assert (Q3 : K * r' ^ n <= 2 * K * r' ^ S n).
  { assert (P0 : 0 <= K * r' ^ n) by (apply Rmult_le_pos; [exact K0|apply pow_le; lra]). cbn [pow]. set (P := r' ^ n) in *. replace (2 * K * (r' * P)) with (2 * r' * (K * P)) by ring. nra. }
  assert (0 <= Rabs (h 0%nat) * r' ^ S n) by (apply Rmult_le_pos; [apply Rabs_pos|apply pow_le; lra]).
  apply Rabs_le. apply Rabs_le_inv in B0, B1. lra.
Qed.
Lemma conv_decays h e : (exists K rho, 0 <= K /\ 0 < rho < 1 /\ forall n, Rabs (h n) <= K * rho ^ n) -> settles e (fun _ => 0) -> settles (conv h e) (fun _ => 0).
Proof.
  intros (K & r & K0 & Hr & B) S1. destruct (settles_K _ _ S1) as (K1 & q & K10 & Hq & E).
  set (t := (1 + Rmax r q) / 2). assert (M1 : r <= Rmax r q) by apply Rmax_l. assert (M2 : q <= Rmax r q) by apply Rmax_r. assert (M3 : Rmax r q < 1) by (apply Rmax_lub_lt; lra).
  assert (T1 : r <= t /\ q < t /\ 0 < t < 1) by (unfold t; lra).
  assert (G : forall n (x : nat -> R) Kx, 0 <= Kx -> (forall i, Rabs (x i) <= Kx * q ^ i) -> Rabs (conv h x n) <= Kx * K * (t / (t - q)) * t ^ n).
  { assert (A1 : 1 <= t / (t - q)) by (apply Rmult_le_reg_r with (t - q); [lra|]; unfold Rdiv; rewrite Rmult_assoc, Rinv_l by lra; lra).
    assert (ME : t / (t - q) * (t - q) = t) by (field; lra). set (M := t / (t - q)) in *. clearbody M.
    assert (B' : forall n, Rabs (h n) <= K * t ^ n) by (intro n; eapply Rle_trans; [apply B|]; apply Rmult_le_compat_l; [exact K0|apply pow_incr; lra]).
    induction n as [|n IH]; intros x Kx HX Hx.
    - rewrite conv_0, Rabs_mult. specialize (Hx 0%nat). specialize (B' 0%nat). cbn [pow] in *. rewrite Rmult_1_r in *.
      apply Rle_trans with (Kx * K); [apply Rmult_le_compat; try apply Rabs_pos; assumption|]. rewrite <- (Rmult_1_r (Kx * K)) at 1. apply Rmult_le_compat_l; [apply Rmult_le_pos; assumption|exact A1].
    - rewrite conv_S. specialize (IH (fun i => x (S i)) (Kx * q)). eapply Rle_trans; [apply Rabs_triang|]. rewrite Rabs_mult.
      assert (IB := IH ltac:(apply Rmult_le_pos; lra) ltac:(intro i; specialize (Hx (S i)); cbn [pow] in Hx; lra)).
      assert (H0 := Hx 0%nat). cbn [pow] in H0. rewrite Rmult_1_r in H0. assert (H1 := B' (S n)). set (P := t ^ n) in *.
      cbn [pow] in *. fold P in H1 |- *.
      assert (A : Rabs (x 0%nat) * Rabs (h (S n)) <= Kx * (K * (t * P))) by (apply Rmult_le_compat; try apply Rabs_pos; assumption).
      eapply Rle_trans; [apply Rplus_le_compat; [exact A|exact IB]|]. right. transitivity (Kx * K * P * (t + q * M)); [ring|]. replace (t + q * M) with (M * t) by lra. ring. }
  exists (K1 * K * (t / (t - q))), t. split; [lra|]. intro n. rewrite Rminus_0_r. apply G; [exact K10|]. intro i. specialize (E i). rewrite Rminus_0_r in E. exact E.
Qed.
Lemma responds_conv a b A B : responds a A -> responds b B -> responds (conv b a) (fun om => cmul (B om) (A om)).
Proof.
  intros RA RB om w. pose proof (decays_of b B (transforms_of b B RB)) as D.
  set (v := cmul (A om) w). set (e := fun n => conv a (tone om w) n - tone om v n).
  assert (SE : settles e (fun _ => 0)) by (destruct (RA om w) as (K & r & Hr & Q); exists K, r; split; [exact Hr|]; intro n; rewrite Rminus_0_r; apply Q).
  pose proof (conv_decays b e D SE) as S1. pose proof (settles_sum _ _ _ _ S1 (RB om v)) as S2. eapply settles_le; [exact S2|]. intro n. cbn beta.
  rewrite conv_assoc. rewrite (conv_ext b b (conv a (tone om w)) (fun i => tone om v i + 1 * e i) n) by (intros; unfold e; ring || reflexivity). rewrite conv_lin.
  replace (tone om (cmul (cmul (B om) (A om)) w) n) with (tone om (cmul (B om) v) n) by (unfold v, tone, cmul; cbn [fst snd]; ring).
  rewrite Rminus_0_r, Rplus_comm. eapply Rle_trans; [|apply Rplus_le_compat_r, Rle_refl].
  replace (1 * conv b e n + conv b (tone om v) n - tone om (cmul (B om) v) n) with (conv b e n + (conv b (tone om v) n - tone om (cmul (B om) v) n)) by ring.
  replace (conv b (tone om v) n + 1 * conv b e n - tone om (cmul (B om) v) n) with (conv b e n + (conv b (tone om v) n - tone om (cmul (B om) v) n)) by ring. apply Rabs_triang.
Qed.
Lemma responds_ext h h' H : (forall n, h n = h' n) -> responds h H -> responds h' H.
Proof. intros E R om w. destruct (R om w) as (K & r & Hr & B). exists K, r. split; [exact Hr|]. intro n. rewrite <- (conv_ext h h' (tone om w) (tone om w) n) by (intros; auto). apply B. Qed.
Lemma responds_extH h H H' : (forall om, H om = H' om) -> responds h H -> responds h H'.
Proof. intros E R om w. rewrite <- E. apply R. Qed.
Lemma responds_impulse : responds impulse (fun _ => cre 1).
Proof. intros om w. exists 0, 0. split; [lra|]. intro n. rewrite impulse_conv. replace (tone om (cmul (cre 1) w) n) with (tone om w n) by (unfold tone, cmul, cre; cbn [fst snd]; ring). rewrite Rminus_diag_eq, Rabs_R0 by reflexivity. lra. Qed.
Lemma responds_gain a : responds (fun n => a * impulse n) (fun _ => cre a).
Proof.
  intros om w. exists 0, 0. split; [lra|]. intro n.
  assert (E : conv (fun n => a * impulse n) (tone om w) n = a * tone om w n).
  { rewrite conv_comm. rewrite (conv_ext _ (tone om w) _ (fun i => 0 + a * impulse i) n) by (intros; ring || reflexivity). rewrite (conv_lin (tone om w) (fun _ => 0) impulse a), conv_impulse. unfold conv. rewrite (sum_eq _ (fun _ => 0)) by (intros; ring). rewrite sum_eq_R0 by reflexivity. ring. }
  rewrite E, <- tone_scale. rewrite Rminus_diag_eq, Rabs_R0 by reflexivity. lra.
Qed.
Lemma responds_late d : responds (late d) (fun om => zi (om * INR d)).
Proof.
  intros om w. set (W := cmul (zi (om * INR d)) w). exists (csum W * 2 ^ d), (/ 2). split; [lra|]. intro n. rewrite conv_late. pose proof (csum_pos W) as C0.
  destruct (Nat.ltb_spec n d) as [C|C].
  - rewrite Rminus_0_l, Rabs_Ropp. eapply Rle_trans; [apply tone_csum|]. rewrite Rmult_assoc. rewrite <- (Rmult_1_r (csum W)) at 1. apply Rmult_le_compat_l; [exact C0|].
    rewrite pow_inv. replace d with (n + (d - n))%nat by lia. rewrite pow_add. assert (0 < 2 ^ n) by (apply pow_lt; lra). replace (2 ^ n * 2 ^ (d - n) * / 2 ^ n) with (2 ^ (d - n)) by (field; lra). apply pow_R1_Rle. lra.
  - unfold W. rewrite tone_back by exact C. rewrite Rminus_diag_eq, Rabs_R0 by reflexivity. apply Rmult_le_pos; [apply Rmult_le_pos; [exact C0|apply pow_le; lra]|apply pow_le; lra].
Qed.
Lemma responds_echo D g : (0 < D)%nat -> Rabs g < 1 -> responds (echo_h D g) (fun om => cinv (csub (cre 1) (cmul (cre g) (zi (om * INR D))))).
Proof.
  intros HD G1 om w. set (W := cmul _ w). set (a := Rabs g) in *. assert (a0 : 0 <= a) by apply Rabs_pos.
  set (e := 1 - a). assert (e0 : 0 < e <= 1) by (unfold e; lra).
  assert (N1 : 1 <= INR D) by (replace 1 with (INR 1) by reflexivity; apply le_INR; lia).
  set (t := e / (2 * INR D)). assert (T0 : 0 < t) by (unfold t; apply Rdiv_lt_0_compat; lra). assert (NT : INR D * t = e / 2) by (unfold t; field; lra). assert (T1 : t <= / 2) by nra.
  set (r := 1 - t). assert (RN : 1 - e / 2 <= r ^ D) by (rewrite <- NT; apply bernoulli; lra).
  pose proof (csum_pos W) as C0. pose proof (csum_pos w) as C1. set (M := csum w + csum W).
  exists (2 * M), r. split; [unfold r; lra|].
  assert (WEQ : W = cadd w (cmul (cre g) (cmul (zi (om * INR D)) W))).
  { apply echo_H_eq; [exact G1|]. unfold zi. cbn [fst snd]. pose proof (sin2_cos2 (om * INR D)) as Q. unfold Rsqr in Q. lra. }
  intro n. rewrite conv_echo by exact HD. induction n as [k IH] using lt_wf_ind. assert (PR : forall i, 0 < r ^ i) by (intro i; apply pow_lt; unfold r; lra).
  destruct (Nat.lt_ge_cases k D) as [C|C].
  - rewrite comb_small by exact C. assert (PJ : r ^ D <= r ^ k).
    { replace D with (k + (D - k))%nat by lia. rewrite pow_add. rewrite <- (Rmult_1_r (r ^ k)) at 2. apply Rmult_le_compat_l; [left; apply PR|]. rewrite <- (pow1 (D - k)). apply pow_incr. unfold r; lra. }
    pose proof (tone_csum om W k) as A. pose proof (tone_csum om w k) as B. apply Rabs_le_inv in A, B.
    assert (M * (/ 2) <= M * r ^ k) by (apply Rmult_le_compat_l; unfold M; lra). apply Rabs_le. unfold M in *. lra.
  - rewrite comb_rec by lia. rewrite WEQ at 1. rewrite tone_add, tone_scale, tone_back by exact C. specialize (IH (k - D)%nat ltac:(lia)).
    replace (_ - _) with (g * (comb D g (tone om w) (k - D) - tone om W (k - D))) by ring. rewrite Rabs_mult. fold a.
    apply Rle_trans with (a * (2 * M * r ^ (k - D))); [apply Rmult_le_compat_l; assumption|]. replace (r ^ k) with (r ^ D * r ^ (k - D)) by (rewrite <- pow_add; f_equal; lia).
    specialize (PR (k - D)%nat). set (P := r ^ (k - D)) in *. assert (0 <= 2 * M * P) by (apply Rmult_le_pos; unfold M; lra). replace (a * (2 * M * P)) with (2 * M * P * a) by ring. replace (2 * M * (r ^ D * P)) with (2 * M * P * r ^ D) by ring.
    apply Rmult_le_compat_l; [assumption|]. unfold e in *. lra.
Qed.
