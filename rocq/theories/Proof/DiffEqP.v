(** * The filters' states are their past samples; the difference equations *)
From Coq Require Import ZArith List Bool Arith Reals Lia.
From Flocq Require Import Core.Core IEEE754.BinarySingleNaN.
From Verif Require Import Model.Floats Model.Modifiers Model.Filters Spec.Delayed Proof.GenericP.
Import ListNotations.

Lemma ago_before k (l : list f32) a : (k <= length l)%nat -> forall n, (n <= length l)%nat -> (1 <= k)%nat -> ago k (l ++ a) n = ago k l n.
Proof. intros _ n Hn Hk. unfold ago. destruct (Nat.ltb_spec n k); [reflexivity|]. apply app_nth1. lia. Qed.
Lemma ago_S k (l : list f32) x : ago (S k) (l ++ [x]) (S (length l)) = ago k (l ++ [x]) (length l).
Proof. unfold ago. change (S (length l) <? S k) with (length l <? k). destruct (length l <? k); [reflexivity|]. f_equal. Qed.
Lemma ago_0 (l : list f32) x : ago 0 (l ++ [x]) (length l) = x.
Proof. unfold ago. cbn [Nat.ltb Nat.leb]. rewrite Nat.sub_0_r, app_nth2, Nat.sub_diag by lia. reflexivity. Qed.
Lemma ago_pre k (l a : list f32) n : (n < length l)%nat -> ago k (l ++ a) n = ago k l n.
Proof. intro Hn. unfold ago. destruct (Nat.ltb_spec n k); [reflexivity|]. apply app_nth1. lia. Qed.
Lemma ago_end k (l : list f32) a : ago (S k) (l ++ a) (length l) = ago (S k) l (length l).
Proof. unfold ago. destruct (Nat.ltb_spec (length l) (S k)); [reflexivity|]. apply app_nth1. lia. Qed.

(** a machine whose output is a function of delayed inputs and outputs *)
Section Machine.
Variable St : Type. Variable step : St -> f32 -> f32 * St.
Variable inv : list f32 -> list f32 -> St -> Prop.     (* inputs so far, outputs so far *)
Variable eqn : (nat -> f32) -> (nat -> f32) -> f32.    (* [fun k => x[n-k]], [fun k => y[n-k]] *)
Hypothesis eqn_ext : forall f f' g g', (forall k, f k = f' k) -> (forall k, g (S k) = g' (S k)) -> eqn f g = eqn f' g'.
Hypothesis Hstep : forall xs ys s x, length ys = length xs -> inv xs ys s ->
  fst (step s x) = eqn (fun k => ago k (xs ++ [x]) (length xs)) (fun k => ago k ys (length xs)) /\
  inv (xs ++ [x]) (ys ++ [fst (step s x)]) (snd (step s x)).
Lemma run_snoc_pure (xs : list f32) x s : run step s (xs ++ [x]) =
  let '(ys, s') := run step s xs in (ys ++ [fst (step s' x)], snd (step s' x)).
Proof.
  rewrite run_app. destruct (run step s xs) as [ys s']. cbn [run fst snd]. destruct (step s' x); reflexivity.
Qed.
Lemma machine_spec s0 : inv [] [] s0 -> forall xs, inv xs (fst (run step s0 xs)) (snd (run step s0 xs)) /\
  forall n, (n < length xs)%nat -> let ys := fst (run step s0 xs) in
    nth n ys f0 = eqn (fun k => ago k xs n) (fun k => ago k ys n).
Proof.
  intro H0. induction xs as [|x xs [IH1 IH2]] using rev_ind.
  - split; [exact H0|]. intros n Hn. cbn in Hn. lia.
  - rewrite run_snoc_pure. pose proof (run_length step xs s0) as L. destruct (run step s0 xs) as [ys s]. cbn [fst snd] in *.
    destruct (Hstep xs ys s x L IH1) as [E I]. split; [exact I|]. intros n Hn. cbv zeta. rewrite app_length in Hn. cbn in Hn.
    destruct (Nat.eq_dec n (length xs)) as [->|Hlt].
    + rewrite app_nth2 by lia. rewrite L, Nat.sub_diag. cbn [nth]. rewrite E at 1. apply eqn_ext; [reflexivity|].
      intro k. rewrite <- L. symmetry. apply ago_end.
    + rewrite app_nth1 by lia. rewrite IH2 by lia. apply eqn_ext; intro k; symmetry; apply ago_pre; lia.
Qed.
End Machine.

Definition lags (l : list f32) (n : nat) : hist f32 := mkH (ago 1 l n) (ago 2 l n) (ago 3 l n).
Lemma lags_snoc l y : lags (l ++ [y]) (length (l ++ [y])) = mkH y (ago 1 l (length l)) (ago 2 l (length l)).
Proof. rewrite app_length. cbn [length]. rewrite Nat.add_1_r. unfold lags. rewrite !ago_S, ago_0, !ago_end. reflexivity. Qed.

Definition lp_inv (fc r : f64) (c : coeffs f32) (xs ys : list f32) (s : lowpass) : Prop := s = mkLP fc r c (lags ys (length ys)).
Lemma lp_difference (s : lowpass) (xs : list f32) n : lp_outs s = hist0 f0 -> (n < length xs)%nat ->
  let ys := fst (run lp_process s xs) in let c := lp_coeff s in
  nth n ys f0 = fadd (fadd (fadd (fmul (c0 c) (ago 0 xs n)) (fmul (c1 c) (ago 1 ys n))) (fmul (c2 c) (ago 2 ys n))) (fmul (c3 c) (ago 3 ys n)).
Proof.
  intros H0 Hn. destruct s as [fc r c o]. cbn [lp_outs lp_coeff] in *. subst o.
  refine (proj2 (machine_spec _ lp_process (lp_inv fc r c)
    (fun x y => fadd (fadd (fadd (fmul (c0 c) (x 0%nat)) (fmul (c1 c) (y 1%nat))) (fmul (c2 c) (y 2%nat))) (fmul (c3 c) (y 3%nat))) _ _ _ _ xs) n Hn).
  - intros f f' g g' Hf Hg. rewrite Hf, !Hg. reflexivity.
  - intros xs0 ys s x L ->. rewrite ago_0, <- L. split; [reflexivity|]. unfold lp_inv.
    rewrite lags_snoc. reflexivity.
  - reflexivity.
Qed.
Definition hp_inv (fc r : f64) (c : hpc f32) (xs ys : list f32) (s : highpass) : Prop := s = mkHP fc r c (lags xs (length xs), lags ys (length ys)).
Lemma hp_difference (s : highpass) (xs : list f32) n : hp_hist s = (hist0 f0, hist0 f0) -> (n < length xs)%nat ->
  let ys := fst (run hp_process s xs) in let c := hp_coeff s in
  nth n ys f0 = fadd (fadd (fadd (fadd (fadd (fadd (fmul (c0 (hc_a c)) (ago 0 xs n)) (fmul (c1 (hc_a c)) (ago 1 xs n))) (fmul (c2 (hc_a c)) (ago 2 xs n)))
      (fmul (c3 (hc_a c)) (ago 3 xs n))) (fmul (hc_b1 c) (ago 1 ys n))) (fmul (hc_b2 c) (ago 2 ys n))) (fmul (hc_b3 c) (ago 3 ys n)).
Proof.
  intros H0 Hn. destruct s as [fc r c o]. cbn [hp_hist hp_coeff] in *. subst o.
  refine (proj2 (machine_spec _ hp_process (hp_inv fc r c)
    (fun x y => fadd (fadd (fadd (fadd (fadd (fadd (fmul (c0 (hc_a c)) (x 0%nat)) (fmul (c1 (hc_a c)) (x 1%nat))) (fmul (c2 (hc_a c)) (x 2%nat)))
      (fmul (c3 (hc_a c)) (x 3%nat))) (fmul (hc_b1 c) (y 1%nat))) (fmul (hc_b2 c) (y 2%nat))) (fmul (hc_b3 c) (y 3%nat))) _ _ _ _ xs) n Hn).
  - intros f f' g g' Hf Hg. rewrite !Hf, !Hg. reflexivity.
  - intros xs0 ys s x L ->. rewrite ago_0, !ago_end, <- L. split; [rewrite L; reflexivity|]. unfold hp_inv.
    rewrite !lags_snoc, <- !L. reflexivity.
  - reflexivity.
Qed.
Definition bp_inv (f q : f64) (c : bpc f64) (xs ys : list f32) (s : bandpass) : Prop :=
  s = mkBP f q c (mkBPH (ago 1 xs (length xs)) (ago 2 xs (length xs)) (ago 1 ys (length ys)) (ago 2 ys (length ys))).
Lemma bp_difference m (s : bandpass) (xs : list f32) n : bp_hist s = bph0 -> (n < length xs)%nat ->
  let ys := fst (run (bp_process m) s xs) in let c := bp_coeff s in
  nth n ys f0 = to32 (fsub (fadd (fmul (bc_a0 c) (to64 (fsub (ago 0 xs n) (ago 2 xs n)))) (fmul (bc_b1 c) (to64 (ago 1 ys n)))) (fmul (bc_b2 c) (to64 (ago 2 ys n)))).
Proof.
  intros H0 Hn. destruct s as [f q c o]. cbn [bp_hist bp_coeff] in *. subst o.
  refine (proj2 (machine_spec _ (bp_process m) (bp_inv f q c)
    (fun x y => to32 (fsub (fadd (fmul (bc_a0 c) (to64 (fsub (x 0%nat) (x 2%nat)))) (fmul (bc_b1 c) (to64 (y 1%nat)))) (fmul (bc_b2 c) (to64 (y 2%nat))))) _ _ _ _ xs) n Hn).
  - intros f' f'' g g' Hf Hg. rewrite !Hf, !Hg. reflexivity.
  - intros xs0 ys s x L ->. rewrite ago_0, !ago_end, <- L. split; [rewrite L; reflexivity|]. unfold bp_inv.
    rewrite !app_length. cbn [length]. rewrite !Nat.add_1_r, !ago_S, !ago_0, !ago_end, <- !L. reflexivity.
  - reflexivity.
Qed.
Lemma fsub_same (c : f32) : is_finite c = true -> fsub c c = f0.
Proof.
  intro F. unfold fsub. pose proof (Bminus_correct 24 128 _ _ mode_NE c c F F) as H.
  rewrite Rminus_diag_eq, round_0 in H by (reflexivity || apply valid_rnd_round_mode). rewrite Rabs_R0, Rlt_bool_true in H by apply bpow_gt_0.
  destruct H as (V & FV & SV). rewrite Rcompare_Eq in SV by reflexivity.
  assert (S0 : Bsign (Bminus mode_NE c c) = false) by (rewrite SV; destruct (Bsign c); reflexivity).
  destruct (Bminus mode_NE c c) as [z|z| |z m e B]; try discriminate.
  - cbn in S0. subst z. reflexivity.
  - exfalso. unfold B2R in V. apply eq_0_F2R in V. cbn in V. destruct z; discriminate.
Qed.
(** a constant (or a signal of period 2) enters the band pass for the first two samples only *)
Lemma bp_period2 m (s : bandpass) (xs : list f32) n : bp_hist s = bph0 -> (2 <= n < length xs)%nat -> is_finite (nth n xs f0) = true ->
  nth (n - 2) xs f0 = nth n xs f0 ->
  let ys := fst (run (bp_process m) s xs) in let c := bp_coeff s in
  nth n ys f0 = to32 (fsub (fadd (fmul (bc_a0 c) f0) (fmul (bc_b1 c) (to64 (nth (n - 1) ys f0)))) (fmul (bc_b2 c) (to64 (nth (n - 2) ys f0)))).
Proof.
  intros H0 Hn F E ys c. unfold ys, c. rewrite bp_difference by (assumption || lia).
  unfold ago. destruct (Nat.ltb_spec n 0); [lia|]. destruct (Nat.ltb_spec n 1); [lia|]. destruct (Nat.ltb_spec n 2); [lia|].
  rewrite Nat.sub_0_r, E, fsub_same by exact F. replace (to64 f0) with (f0 : f64) by (apply B2SF_inj; reflexivity). reflexivity.
Qed.
