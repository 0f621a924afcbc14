(** * Filters in a row: an error that dies out going in, an error that dies out coming out *)
From Coq Require Import ZArith List Bool Reals Lra Lia Psatz.
From Flocq Require Import Core.Core IEEE754.BinarySingleNaN.
From Verif Require Import Model.Floats Model.Modifiers Model.Filters Spec.Libm Spec.Response Spec.Track Spec.Chain Proof.FloatFacts Proof.FiltersP2 Proof.BandPassP Proof.BandPassF32P
  Proof.FilterF32P Proof.FilterF32P2 Proof.ResponseP Proof.ResponseP2 Proof.ResponseP3 Proof.CornersP Proof.TrackP Proof.TrackP2 Proof.TrackP3.
Import ListNotations.
Local Open Scope R_scope.

Section Linear.
Context {St : Type} (step : St -> R -> R * St) (add : St -> St -> St) (sc : R -> St -> St) (s0 : St).
Hypothesis L : forall c s s' x x', step (add s (sc c s')) (x + c * x') = (fst (step s x) + c * fst (step s' x'), add (snd (step s x)) (sc c (snd (step s' x')))).
Hypothesis Z : forall c, add s0 (sc c s0) = s0.
Hypothesis N : step s0 0 = (0, s0).
Lemma after_ext s x x' n : (forall i, (i < n)%nat -> x i = x' i) -> after step s x n = after step s x' n.
Proof. induction n as [|n IH]; intro H; [reflexivity|]. cbn [after]. rewrite IH by (intros; apply H; lia). rewrite H by lia. reflexivity. Qed.
Lemma out_ext s x x' n : (forall i, (i <= n)%nat -> x i = x' i) -> out step s x n = out step s x' n.
Proof. intro H. unfold out. rewrite (after_ext s x x' n) by (intros; apply H; lia). rewrite H by lia. reflexivity. Qed.
Lemma after_lin c s s' x x' n : after step (add s (sc c s')) (fun i => x i + c * x' i) n = add (after step s x n) (sc c (after step s' x' n)).
Proof. induction n as [|n IH]; [reflexivity|]. cbn [after]. rewrite IH, L. reflexivity. Qed.
Lemma out_lin c s s' x x' n : out step (add s (sc c s')) (fun i => x i + c * x' i) n = out step s x n + c * out step s' x' n.
Proof. unfold out. rewrite after_lin, L. reflexivity. Qed.
Lemma out_add x x' n : out step s0 (fun i => x i + x' i) n = out step s0 x n + out step s0 x' n.
Proof.
  rewrite (out_ext s0 _ (fun i => x i + 1 * x' i) n) by (intros; ring). pose proof (out_lin 1 s0 s0 x x' n) as E. rewrite Z in E. rewrite E. ring.
Qed.
Lemma after_shift x n : forall s, after step s x (S n) = after step (snd (step s (x 0%nat))) (fun i => x (S i)) n.
Proof. induction n as [|n IH]; intro s; [reflexivity|]. change (after step s x (S (S n))) with (snd (step (after step s x (S n)) (x (S n)))). rewrite IH. reflexivity. Qed.
Lemma out_shift x n s : out step s x (S n) = out step (snd (step s (x 0%nat))) (fun i => x (S i)) n.
Proof. unfold out. rewrite after_shift. reflexivity. Qed.
(** the impulse response *)
Definition imp (n : nat) : R := match n with O => fst (step s0 1) | S p => out step (snd (step s0 1)) (fun _ => 0) p end.
Lemma first_step c : step s0 c = (c * fst (step s0 1), add s0 (sc c (snd (step s0 1)))).
Proof. pose proof (L c s0 s0 0 1) as E. rewrite Z, N in E. cbn [fst snd] in E. replace (0 + c * 1) with c in E by ring. rewrite E. f_equal. ring. Qed.
Lemma out_conv x n : out step s0 x (S n) = x 0%nat * imp (S n) + out step s0 (fun i => x (S i)) n.
Proof.
  rewrite out_shift. pose proof (first_step (x 0%nat)) as E. rewrite E. cbn [snd imp].
  rewrite (out_ext _ (fun i => x (S i)) (fun i => x (S i) + x 0%nat * 0) n) by (intros; ring).
  rewrite (out_lin (x 0%nat) s0 (snd (step s0 1)) (fun i => x (S i)) (fun _ => 0) n). ring.
Qed.
Lemma conv_bound Kh r q : 0 <= Kh -> 0 <= q < r -> (forall n, Rabs (imp n) <= Kh * r ^ n) ->
  forall n x Kx, 0 <= Kx -> (forall i, Rabs (x i) <= Kx * q ^ i) -> Rabs (out step s0 x n) <= Kx * Kh * (r / (r - q)) * r ^ n.
Proof.
  intros HK Hq HI. assert (M1 : 1 <= r / (r - q)) by (apply Rmult_le_reg_r with (r - q); [lra|]; unfold Rdiv; rewrite Rmult_assoc, Rinv_l by lra; lra).
  assert (ME : r / (r - q) * (r - q) = r) by (field; lra). set (M := r / (r - q)) in *. clearbody M.
  induction n as [|n IH]; intros x Kx HX Hx.
  - unfold out. cbn [after]. rewrite first_step. cbn [fst]. specialize (Hx 0%nat). specialize (HI 0%nat). cbn [pow imp] in *. rewrite Rmult_1_r in *. rewrite Rabs_mult.
    apply Rle_trans with (Kx * Kh); [apply Rmult_le_compat; try apply Rabs_pos; assumption|]. rewrite <- (Rmult_1_r (Kx * Kh)) at 1. apply Rmult_le_compat_l; [apply Rmult_le_pos; assumption|exact M1].
  - rewrite out_conv. specialize (IH (fun i => x (S i)) (Kx * q)). eapply Rle_trans; [apply Rabs_triang|]. rewrite Rabs_mult.
    assert (IB := IH ltac:(apply Rmult_le_pos; lra) ltac:(intro i; specialize (Hx (S i)); cbn [pow] in Hx; lra)).
    assert (H0 := Hx 0%nat). cbn [pow] in H0. rewrite Rmult_1_r in H0. assert (H1 := HI (S n)). set (P := r ^ n) in *.
    assert (PP : 0 <= P) by (apply pow_le; lra). cbn [pow] in *. fold P in H1 |- *.
    assert (A : Rabs (x 0%nat) * Rabs (imp (S n)) <= Kx * (Kh * (r * P))) by (apply Rmult_le_compat; try apply Rabs_pos; assumption).
    eapply Rle_trans; [apply Rplus_le_compat; [exact A|exact IB]|]. right. transitivity (Kx * Kh * P * (r + q * M)); [ring|]. replace (r + q * M) with (M * r) by lra. ring.
Qed.
Lemma imp_decays : (forall s, settles (response step s (fun _ => 0)) (fun _ => 0)) -> exists Kh r, 0 <= Kh /\ 0 <= r < 1 /\ forall n, Rabs (imp n) <= Kh * r ^ n.
Proof.
  intro H. destruct (H (snd (step s0 1))) as (K & r & Hr & B).
  assert (K0 : 0 <= K) by (specialize (B 0%nat); cbn [pow] in B; pose proof (Rabs_pos (response step (snd (step s0 1)) (fun _ => 0) 0 - 0)); lra).
  set (r' := Rmax r (/ 2)). assert (R1 : / 2 <= r') by apply Rmax_r. assert (R2 : r <= r') by apply Rmax_l. assert (R3 : r' < 1) by (apply Rmax_lub_lt; lra).
  exists (Rabs (imp 0) + 2 * K), r'. split; [pose proof (Rabs_pos (imp 0)); lra|]. split; [lra|]. intros [|n].
  - cbn [pow]. lra.
  - specialize (B n). rewrite response_out, Rminus_0_r in B. change (imp (S n)) with (out step (snd (step s0 1)) (fun _ => 0) n).
    assert (P1 : r ^ n <= r' ^ n) by (apply pow_incr; lra). assert (P2 : 0 <= r' ^ n) by (apply pow_le; lra). cbn [pow]. pose proof (Rabs_pos (imp 0)).
    apply Rle_trans with (K * r' ^ n); [eapply Rle_trans; [exact B|]; apply Rmult_le_compat_l; assumption|]. set (P := r' ^ n) in *. clearbody P.
    assert (0 <= K * P * (2 * r' - 1)) by (apply Rmult_le_pos; [apply Rmult_le_pos; assumption|lra]). assert (0 <= Rabs (imp 0) * (r' * P)) by (apply Rmult_le_pos; [assumption|apply Rmult_le_pos; lra]). lra.
Qed.
End Linear.

(** the part of an error beyond [e] *)
Definition within_part (e z : R) : R := Rmax (- e) (Rmin e z).
Lemma split_error e b z : 0 <= e -> 0 <= b -> Rabs z <= e + b -> Rabs (within_part e z) <= e /\ Rabs (z - within_part e z) <= b.
Proof.
  intros He Hb H. apply Rabs_le_inv in H. unfold within_part. destruct (Rle_dec e z).
  - rewrite (Rmin_left e z), (Rmax_right (- e) e) by lra. split; apply Rabs_le; lra.
  - rewrite (Rmin_right e z) by lra. destruct (Rle_dec (- e) z); [rewrite Rmax_right by lra|rewrite Rmax_left by lra]; split; apply Rabs_le; lra.
Qed.
Lemma tone_list {SF St} (fstep : SF -> f32 -> f32 * SF) (sf : SF) (step : St -> R -> R * St) (add : St -> St -> St) (sc : R -> St -> St) (s0 : St) (H : R -> C) d G X :
  (forall c s s' x x', step (add s (sc c s')) (x + c * x') = (fst (step s x) + c * fst (step s' x'), add (snd (step s x)) (sc c (snd (step s' x'))))) ->
  (forall c, add s0 (sc c s0) = s0) -> step s0 0 = (0, s0) ->
  (forall xs, (forall z, In z xs -> fin z /\ Rabs (B2R z) <= X) ->
     Forall2 (fun y z => fin y /\ Rabs (B2R y - z) <= d * X) (fst (run fstep sf xs)) (fst (run step s0 (map B2R xs)))) ->
  (forall xs E, 0 <= E -> (forall z, In z xs -> Rabs z <= E) -> forall y, In y (fst (run step s0 xs)) -> Rabs y <= G * E) ->
  (forall om s w, settles (response step s (tone om w)) (tone om (cmul (H om) w))) -> 0 <= X ->
  forall om w K rho, 0 <= K -> 0 <= rho < 1 -> exists K' rho', 0 <= K' /\ 0 <= rho' < 1 /\
    forall eps xs, 0 <= eps -> near_tone om w eps K rho X xs -> near_tone om (cmul (H om) w) (d * X + G * eps) K' rho' ((G + d) * X) (fst (run fstep sf xs)).
Proof.
  intros L Z N T B ST X0 om w K rho HK Hrho.
  destruct (ST om s0 w) as (K1 & r1 & R1 & S1).
  assert (ZD : forall s, settles (response step s (fun _ => 0)) (fun _ => 0)).
  { intro s. destruct (ST 0 s (0, 0)) as (K2 & r2 & R2 & S2). exists K2, r2. split; [exact R2|]. intro n. specialize (S2 n).
    rewrite response_out in S2 |- *. rewrite (out_ext step s (tone 0 (0, 0)) (fun _ => 0) n) in S2 by (intros; unfold tone; cbn [fst snd]; ring).
    replace (tone 0 (cmul (H 0) (0, 0)) n) with 0 in S2 by (unfold tone, cmul; cbn [fst snd]; ring). exact S2. }
  destruct (imp_decays step s0 ZD) as (Kh & rh & HKh & Hrh & HI).
  set (r := (1 + Rmax rh rho) / 2). assert (M1 : rh <= Rmax rh rho) by apply Rmax_l. assert (M2 : rho <= Rmax rh rho) by apply Rmax_r.
  assert (M3 : Rmax rh rho < 1) by (apply Rmax_lub_lt; lra). assert (RR : rh < r /\ rho < r /\ r < 1) by (unfold r; lra).
  assert (HI' : forall n, Rabs (imp step s0 n) <= Kh * r ^ n).
  { intro n. eapply Rle_trans; [apply HI|]. apply Rmult_le_compat_l; [exact HKh|]. apply pow_incr. lra. }
  pose proof (conv_bound step add sc s0 L Z N Kh r rho HKh ltac:(lra) HI') as CB.
  assert (K10 : 0 <= K1) by (specialize (S1 0%nat); cbn [pow] in S1; pose proof (Rabs_pos (response step s0 (tone om w) 0 - tone om (cmul (H om) w) 0)); lra).
  set (rho' := Rmax r r1). assert (Q1 : r <= rho') by apply Rmax_l. assert (Q2 : r1 <= rho') by apply Rmax_r. assert (Q3 : rho' < 1) by (apply Rmax_lub_lt; lra).
  assert (KC0 : 0 <= K * Kh * (r / (r - rho))).
  { apply Rmult_le_pos; [apply Rmult_le_pos; assumption|]. apply Rmult_le_pos; [lra|]. left. apply Rinv_0_lt_compat. lra. }
  exists (K * Kh * (r / (r - rho)) + K1), rho'. split; [lra|]. split; [lra|].
  intros eps xs He HX. assert (TR := T xs ltac:(intros z Hz; apply In_nth_error in Hz; destruct Hz as [j Hj]; destruct (HX j z Hj) as (F & A & _); exact (conj F A))).
  intros j y Hy. set (n := length xs). assert (HL : (j < n)%nat).
  { assert (Q : nth_error (fst (run fstep sf xs)) j <> None) by congruence. apply nth_error_Some in Q. rewrite run_len in Q. exact Q. }
  assert (NY : nth j (fst (run fstep sf xs)) f0 = y) by (apply nth_error_nth; exact Hy).
  pose proof (Forall2_nth _ _ _ f0 0 TR j ltac:(rewrite run_len; exact HL)) as TJ. rewrite NY in TJ. destruct TJ as [FY EY].
  set (xr := fun i => nth i (map B2R xs) 0).
  assert (MX : map B2R xs = map xr (seq 0 n)).
  { apply nth_ext with 0 0; [rewrite !map_length, seq_length; reflexivity|]. intros i Hi. rewrite map_length in Hi.
    rewrite (nth_indep (map xr (seq 0 n)) 0 (xr 0%nat)) by (rewrite map_length, seq_length; exact Hi). rewrite map_nth, seq_nth by exact Hi. reflexivity. }
  assert (EJ : nth j (fst (run step s0 (map B2R xs))) 0 = out step s0 xr j).
  { rewrite MX, run_stream. cbn [fst]. rewrite (nth_indep _ 0 (out step s0 xr 0)) by (rewrite map_length, seq_length; exact HL). rewrite map_nth, seq_nth by exact HL. reflexivity. }
  assert (IJ : In (out step s0 xr j) (fst (run step s0 (map B2R xs)))) by (rewrite <- EJ; apply nth_In; rewrite run_len, map_length; exact HL).
  rewrite EJ in EY.
  assert (BX : Rabs (out step s0 xr j) <= G * X).
  { apply (B (map B2R xs) X X0); [|exact IJ]. intros z Hz. apply in_map_iff in Hz. destruct Hz as (x & <- & Hx). apply In_nth_error in Hx. destruct Hx as [i Hi]. apply (HX i x Hi). }
  set (e := fun i => if (i <? n)%nat then xr i - tone om w i else 0).
  assert (HE : forall i, Rabs (e i) <= eps + K * rho ^ i).
  { intro i. assert (P0 : 0 <= K * rho ^ i) by (apply Rmult_le_pos; [exact HK|apply pow_le; lra]). unfold e. destruct (Nat.ltb_spec i n) as [Hi|Hi]; [|rewrite Rabs_R0; lra].
    destruct (nth_error xs i) as [x|] eqn:Ex; [|apply nth_error_None in Ex; lia]. destruct (HX i x Ex) as (_ & _ & A).
    unfold xr. rewrite (nth_error_nth (map B2R xs) i 0 (map_nth_error B2R i xs Ex)). exact A. }
  set (a := fun i => within_part eps (e i)). set (b := fun i => e i - a i).
  assert (HA : forall i, Rabs (a i) <= eps) by (intro i; apply (split_error eps (K * rho ^ i) (e i) He); [apply Rmult_le_pos; [exact HK|apply pow_le; lra]|apply HE]).
  assert (HB : forall i, Rabs (b i) <= K * rho ^ i) by (intro i; apply (split_error eps (K * rho ^ i) (e i) He); [apply Rmult_le_pos; [exact HK|apply pow_le; lra]|apply HE]).
  assert (DE : out step s0 xr j = out step s0 (tone om w) j + (out step s0 a j + out step s0 b j)).
  { rewrite <- (out_add step add sc s0 L Z), <- (out_add step add sc s0 L Z). apply out_ext. intros i Hi. unfold b, e. destruct (Nat.ltb_spec i n) as [Hi'|Hi']; [ring|lia]. }
  assert (BA : Rabs (out step s0 a j) <= G * eps).
  { apply (B (map a (seq 0 (S j))) eps He); [|apply out_in]. intros z Hz. apply in_map_iff in Hz. destruct Hz as (i & <- & _). apply HA. }
  pose proof (CB j b K HK HB) as BB. specialize (S1 j). rewrite response_out in S1.
  assert (P1 : r ^ j <= rho' ^ j) by (apply pow_incr; lra). assert (P2 : r1 ^ j <= rho' ^ j) by (apply pow_incr; lra).
  assert (BB' : Rabs (out step s0 b j) <= K * Kh * (r / (r - rho)) * rho' ^ j) by (eapply Rle_trans; [exact BB|apply Rmult_le_compat_l; assumption]).
  assert (S1' : Rabs (out step s0 (tone om w) j - tone om (cmul (H om) w) j) <= K1 * rho' ^ j) by (eapply Rle_trans; [exact S1|apply Rmult_le_compat_l; assumption]).
  apply Rabs_le_inv in EY. apply Rabs_le_inv in BX. apply Rabs_le_inv in BA. apply Rabs_le_inv in BB'. apply Rabs_le_inv in S1'.
  split; [exact FY|]. split; apply Rabs_le; [lra|]. rewrite DE in EY. lra.
Qed.
