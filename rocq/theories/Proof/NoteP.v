(** * ADSR: the whole envelope of a note *)
From Coq Require Import ZArith List Bool Lia Reals Lra Psatz.
From Flocq Require Import Core.Core IEEE754.BinarySingleNaN.
From Verif Require Import Model.Floats Model.Utils Model.Modifiers Spec.Libm Spec.Decibel Spec.Note
  Proof.FloatFacts Proof.SampleFormatP Proof.FormatsP Proof.UtilsP Proof.WavP Proof.GenericP Proof.NearP Proof.LibmP Proof.DbP
  Proof.AdsrP Proof.AdsrP2 Proof.AdsrP3 Proof.AdsrShapeP.
Import ListNotations.
Local Open Scope R_scope.

(** ** the curve *)
Lemma Rmin_lip a b c d e : Rabs (a - c) <= e -> Rabs (b - d) <= e -> Rabs (Rmin a b - Rmin c d) <= e.
Proof. intros H1 H2. apply Rabs_le_inv in H1, H2. apply Rabs_le. unfold Rmin. destruct (Rle_dec a b), (Rle_dec c d); lra. Qed.
Lemma Rmax_lip a b c d e : Rabs (a - c) <= e -> Rabs (b - d) <= e -> Rabs (Rmax a b - Rmax c d) <= e.
Proof. intros H1 H2. apply Rabs_le_inv in H1, H2. apply Rabs_le. unfold Rmax. destruct (Rle_dec a b), (Rle_dec c d); lra. Qed.
Lemma curve_lip A D L x y : 0 < A -> 0 < D -> 0 <= L <= 1 -> Rabs (adsr_curve A D L x - adsr_curve A D L y) <= (/ A + (1 - L) / D) * Rabs (x - y).
Proof.
  intros HA HD HL. assert (IA : 0 < / A) by (apply Rinv_0_lt_compat; exact HA).
  assert (S0 : 0 <= (1 - L) / D) by (apply Rmult_le_pos; [lra|left; apply Rinv_0_lt_compat; exact HD]). pose proof (Rabs_pos (x - y)) as P.
  assert (P1 : 0 <= / A * Rabs (x - y)) by (apply Rmult_le_pos; lra). assert (P2 : 0 <= (1 - L) / D * Rabs (x - y)) by (apply Rmult_le_pos; lra).
  unfold adsr_curve. apply Rmin_lip.
  - replace (x / A - y / A) with (/ A * (x - y)) by (unfold Rdiv; ring). rewrite Rabs_mult, (Rabs_pos_eq (/ A)) by lra. lra.
  - apply Rmax_lip; [rewrite Rminus_diag_eq, Rabs_R0 by reflexivity; lra|].
    replace (1 - (x - A) * (1 - L) / D - (1 - (y - A) * (1 - L) / D)) with (- ((1 - L) / D * (x - y))) by (unfold Rdiv; ring).
    rewrite Rabs_Ropp, Rabs_mult, (Rabs_pos_eq ((1 - L) / D)) by lra. lra.
Qed.
Lemma curve_attack A D L t : 0 < A -> 0 < D -> 0 <= L <= 1 -> t <= A -> adsr_curve A D L t = t / A.
Proof.
  intros HA HD HL H. unfold adsr_curve. apply Rmin_left. apply Rle_trans with 1.
  - apply Rmult_le_reg_r with A; [exact HA|]. replace (t / A * A) with t by (field; lra). lra.
  - eapply Rle_trans; [|apply Rmax_r]. assert (0 <= (A - t) * ((1 - L) / D)) by (apply Rmult_le_pos; [lra|apply Rmult_le_pos; [lra|left; apply Rinv_0_lt_compat; exact HD]]).
    replace ((t - A) * (1 - L) / D) with (- ((A - t) * ((1 - L) / D))) by (unfold Rdiv; ring). lra.
Qed.
Lemma curve_decay A D L u : 0 < A -> 0 < D -> 0 <= L <= 1 -> 0 <= u -> adsr_curve A D L (A + u) = Rmax L (1 - u * ((1 - L) / D)).
Proof.
  intros HA HD HL H. unfold adsr_curve. replace (A + u - A) with u by ring. replace (u * (1 - L) / D) with (u * ((1 - L) / D)) by (unfold Rdiv; ring).
  assert (0 <= u * ((1 - L) / D)) by (apply Rmult_le_pos; [lra|apply Rmult_le_pos; [lra|left; apply Rinv_0_lt_compat; exact HD]]).
  apply Rmin_right. apply Rle_trans with 1; [apply Rmax_lub; lra|]. replace ((A + u) / A) with (1 + u * / A) by (field; lra).
  assert (0 <= u * / A) by (apply Rmult_le_pos; [lra|left; apply Rinv_0_lt_compat; exact HA]). lra.
Qed.
Lemma curve_range A D L t : 0 < A -> 0 < D -> 0 <= L <= 1 -> A <= t -> L <= adsr_curve A D L t <= 1.
Proof.
  intros HA HD HL H. replace t with (A + (t - A)) by ring. rewrite curve_decay by lra.
  assert (0 <= (t - A) * ((1 - L) / D)) by (apply Rmult_le_pos; [lra|apply Rmult_le_pos; [lra|left; apply Rinv_0_lt_compat; exact HD]]).
  split; [apply Rmax_l|apply Rmax_lub; lra].
Qed.

(** ** a fall at the rate [p], rounded by [eta] a sample, from F + H to a floor F known up to [phi] *)
Lemma fall_real F H p eta phi lo n g : 0 <= p -> 0 <= eta -> 0 <= phi -> 0 <= H -> Rabs (lo - F) <= phi -> 0 <= n ->
  (lo <= g <= F + H /\ Rabs (g - (F + H - n * p)) <= n * eta) \/ (g = lo /\ F + H - n * p - n * eta <= lo /\ lo <= F + H) ->
  let v := Rmax F (F + H - n * p) in Rabs (g - v) <= H + phi /\ (0 < p -> Rabs (g - v) <= 2 * (H + phi) * eta / p + phi).
Proof.
  intros Hp He Hf HH HL Hn C v. apply Rabs_le_inv in HL. assert (NP : 0 <= n * p) by (apply Rmult_le_pos; assumption). assert (NE : 0 <= n * eta) by (apply Rmult_le_pos; assumption).
  assert (V : F <= v <= F + H) by (unfold v; split; [apply Rmax_l|apply Rmax_lub; lra]).
  assert (G : F - phi <= g <= F + H + phi) by (destruct C as [[C _]|(-> & C)]; lra).
  assert (B1 : Rabs (g - v) <= H + phi).
  { destruct C as [[C _]|(-> & _ & C)]; apply Rabs_le; lra. }
  split; [exact B1|]. intro P.
  assert (Q0 : 0 <= 2 * (H + phi) * eta / p) by (apply Rmult_le_pos; [apply Rmult_le_pos; lra|left; apply Rinv_0_lt_compat; exact P]).
  destruct (Rlt_le_dec p (2 * eta)) as [S|S].
  { eapply Rle_trans; [exact B1|]. apply Rle_trans with (2 * (H + phi) * eta / p); [|lra].
    apply Rmult_le_reg_r with p; [exact P|]. replace (2 * (H + phi) * eta / p * p) with ((H + phi) * (2 * eta)) by (field; lra). apply Rmult_le_compat_l; lra. }
  (* at most 2 (H + phi) / p samples *)
  assert (J : n * (p / 2) <= H + phi -> n * eta <= 2 * (H + phi) * eta / p).
  { intro J. apply Rmult_le_reg_r with p; [exact P|]. replace (2 * (H + phi) * eta / p * p) with (eta * (2 * (H + phi))) by (field; lra).
    replace (n * eta * p) with (eta * (2 * (n * (p / 2)))) by field. apply Rmult_le_compat_l; lra. }
  assert (HN : n * (p / 2) <= n * (p - eta)) by (apply Rmult_le_compat_l; lra).
  assert (MX : v = Rmax F (F + H - n * p)) by reflexivity.
  destruct C as [[C1 C2]|(-> & C1 & C2)].
  - apply Rabs_le_inv in C2. specialize (J ltac:(lra)). apply Rabs_le. rewrite MX. unfold Rmax. destruct (Rle_dec F (F + H - n * p)); lra.
  - destruct (Rle_lt_dec (n * (p / 2)) (H + phi)) as [K|K].
    + specialize (J K). apply Rabs_le. rewrite MX. unfold Rmax. destruct (Rle_dec F (F + H - n * p)); lra.
    + assert (E : v = F) by (rewrite MX; apply Rmax_left; lra). rewrite E. apply Rabs_le. lra.
Qed.

(** ** the attack lasts to the sample where the gain first reaches 1 *)
Lemma attack_split e xs : ad_state e = Attack -> ad_state (after_n e xs) = Attack \/
  exists us x vs, xs = us ++ x :: vs /\ ad_state (after_n e us) = Attack /\ ad_state (after_n e (us ++ [x])) = Decay /\ ad_g (after_n e (us ++ [x])) = of_Z 1.
Proof.
  intro S0. induction xs as [|x xs IH] using rev_ind; [left; exact S0|].
  destruct IH as [S1|(us & y & vs & E & IH)].
  - pose proof (after_n_app e xs x) as E. unfold adsr_process in E. rewrite S1 in E. cbv zeta in E. cbn [snd] in E.
    destruct (fge (fadd (ad_g (after_n e xs)) (ad_a (after_n e xs))) (of_Z 1)).
    + right. exists xs, x, []. split; [reflexivity|]. split; [exact S1|]. rewrite E. split; reflexivity.
    + left. rewrite E. reflexivity.
  - right. exists us, y, (vs ++ [x]). split; [rewrite E, <- app_assoc; reflexivity|exact IH].
Qed.
Lemma after_n_cat e xs ys : after_n e (xs ++ ys) = after_n (after_n e xs) ys.
Proof. unfold after_n. rewrite run_app. destruct (run adsr_process e xs) as [a b]. cbn. destruct (run adsr_process b ys). reflexivity. Qed.
Lemma after_history e xs : after_n e xs = adsr_after e (map Proc xs).
Proof. revert e. induction xs as [|x xs IH]; intro e; [reflexivity|]. rewrite after_n_S, IH. reflexivity. Qed.

Section Envelope.
Variables (m : libm) (a d : duration) (s : f64) (r : duration).
Hypothesis HU : pow10_unit m. Hypothesis HA : pow10_accurate m.
Hypothesis Fs : fin s. Hypothesis Hs : Rabs (B2R s) <= 2000.
Hypothesis Pa : pos_dur a. Hypothesis Pd : pos_dur d. Hypothesis Pr : pos_dur r.
Let A := 48000 * dur_R a. Let D := 48000 * dur_R d. Let T := 48000 * dur_R r. Let L := dB (Rmin (B2R s) 0).
Lemma held_envelope xs : A <= bpow radix2 22 ->
  Rabs (B2R (ad_g (after_n (adsr_new m a d s r) xs)) - adsr_curve A D L (INR (length xs))) <= adsr_err A D L.
Proof.
  intro HA22. set (e0 := adsr_new m a d s r). assert (NI : s <> B754_infinity true) by (intro C; subst; discriminate Fs).
  destruct (attack_step_near a Pa) as (F & HAs & E). fold A in E. pose proof (dur_pos a Pa) as DPa. pose proof (dur_pos d Pd) as DPd.
  destruct (new_steps m a d s r HU HA Fs Hs Pd Pr) as (F1 & F2 & F3 & _ & _ & _ & F7 & F8 & F9). fold L D in F3, F8, F9.
  destruct Pa as [Da Pa'], Pd as [Dd Pd'], Pr as [Dr Pr']. destruct (adsr_new_ok m a d r s HU NI Da Dd Dr Pa' Pd' Pr') as [K I].
  assert (A0 : 0 < A) by (unfold A; lra). assert (D0 : 0 < D) by (unfold D; lra).
  assert (IA : 0 < / A) by (apply Rinv_0_lt_compat; exact A0). assert (ID : 0 < / D) by (apply Rinv_0_lt_compat; exact D0).
  change (bpow radix2 22) with 4194304 in HA22.
  set (al := A * bpow radix2 (-25) + bpow radix2 (-22)). set (da := bpow radix2 (-25) + bpow radix2 (-22) / A).
  assert (EA : A * da = al) by (unfold da, al; field; lra).
  assert (al0 : 0 < al <= / 4) by (unfold al; change (bpow radix2 (-25)) with (/ 33554432); change (bpow radix2 (-22)) with (/ 4194304); lra).
  assert (da0 : 0 < da) by (unfold da; pose proof (bpow_gt_0 radix2 (-25)); assert (0 < bpow radix2 (-22) / A) by (apply Rmult_lt_0_compat; [apply bpow_gt_0|exact IA]); lra).
  set (ka := / A + (1 - L) / D). assert (S0 : 0 <= (1 - L) / D) by (apply Rmult_le_pos; lra).
  assert (EE : adsr_err A D L = 2 * al + (D * bpow radix2 (-23) + bpow radix2 (-19)) + ka * (1 + A * (2 * al))).
  { unfold adsr_err. cbv zeta. replace (A * bpow radix2 (-24) + bpow radix2 (-21)) with (2 * al); [reflexivity|]. unfold al. change (bpow radix2 (-24)) with (/ 16777216). change (bpow radix2 (-21)) with (/ 2097152). change (bpow radix2 (-25)) with (/ 33554432). change (bpow radix2 (-22)) with (/ 4194304). field. }
  rewrite EE. assert (DQ : 0 < D * bpow radix2 (-23) + bpow radix2 (-19)) by (apply Rplus_lt_0_compat; [apply Rmult_lt_0_compat; [exact D0|apply bpow_gt_0]|apply bpow_gt_0]).
  assert (KA : 0 < ka) by (unfold ka; lra). assert (DE : 0 <= A * (2 * al)) by (apply Rmult_le_pos; lra).
  (* the attack, as long as it lasts *)
  assert (AT : forall us, let n := INR (length us) in
    (ad_state (after_n e0 us) = Attack -> Rabs (B2R (ad_g (after_n e0 us)) - n / A) <= 2 * al /\ n <= A + A * (2 * al) /\ B2R (ad_g (after_n e0 us)) <= 1) /\
    (ad_state (after_n e0 us) <> Attack -> A - A * (2 * al) <= n)).
  { intros us n. destruct (attack_drift e0 K I eq_refl F HAs us) as [T1 T2]. fold n in T1, T2. change (B2R (ad_g e0)) with 0 in T1, T2. rewrite Rplus_0_l in T1, T2.
    change (ad_a e0) with (fdiv (of_Z 1) (to32 (fmul (as_secs_f64 a) SR64)) : f32) in T1, T2. set (st := B2R (fdiv (of_Z 1) _)) in *.
    assert (N0 : 0 <= n) by apply pos_INR. apply Rabs_le_inv in E.
    assert (E1 : n * - (bpow radix2 (-22) / A) <= n * (st - / A)) by (apply Rmult_le_compat_l; lra).
    assert (E2 : n * (st - / A) <= n * (bpow radix2 (-22) / A)) by (apply Rmult_le_compat_l; lra).
    assert (ND : n / A = n * / A) by reflexivity.
    assert (NDA : n * da = n * bpow radix2 (-25) + n * (bpow radix2 (-22) / A)) by (unfold da; ring).
    assert (NA : n * / A * al = n * da) by (rewrite <- EA; field; lra).
    split.
    - intro S1. destruct (T1 S1) as [B LT]. apply Rabs_le_inv in B.
      assert (B' : - (n * da) <= B2R (ad_g (after_n e0 us)) - n * / A <= n * da) by lra.
      destruct us as [|u us].
      { change (INR (length (@nil f32))) with 0 in n. subst n. change (B2R (ad_g (after_n e0 []))) with 0 in *. rewrite ND. rewrite Rmult_0_l, Rminus_0_r, Rabs_R0. lra. }
      specialize (LT ltac:(discriminate)). set (x := n * / A) in *. assert (X0 : 0 <= x) by (apply Rmult_le_pos; lra).
      assert (XU : x * (1 - al) <= 1) by lra.
      assert (X1 : x <= 1 + 2 * al).
      { apply Rmult_le_reg_r with (1 - al); [lra|]. apply Rle_trans with 1; [exact XU|]. assert (0 <= al * (1 - 2 * al)) by (apply Rmult_le_pos; lra). lra. }
      assert (X2 : x * al <= (1 + 2 * al) * al) by (apply Rmult_le_compat_r; lra). assert (X3 : (1 + 2 * al) * al <= 2 * al) by (apply Rmult_le_compat_r; lra).
      split; [|split; [|lra]].
      + rewrite ND. fold x. apply Rabs_le. lra.
      + replace n with (A * x) by (unfold x; field; lra). replace (A + A * (2 * al)) with (A * (1 + 2 * al)) by ring. apply Rmult_le_compat_l; lra.
    - intro S1. specialize (T2 S1). set (x := n * / A) in *. assert (X0 : 0 <= x) by (apply Rmult_le_pos; lra).
      assert (XU : 1 <= x * (1 + al)) by lra.
      assert (X1 : 1 - 2 * al <= x).
      { apply Rmult_le_reg_r with (1 + al); [lra|]. eapply Rle_trans; [|exact XU]. assert (0 <= al * (1 + 2 * al)) by (apply Rmult_le_pos; lra). lra. }
      replace n with (A * x) by (unfold x; field; lra). replace (A - A * (2 * al)) with (A * (1 - 2 * al)) by ring. apply Rmult_le_compat_l; lra. }
  destruct (attack_split e0 xs eq_refl) as [S1|(us & x & vs & EX & S1 & S2 & G2)].
  - destruct (AT xs) as [X _]. destruct (X S1) as (B & N1 & G1). set (n := INR (length xs)) in *. assert (0 <= ka * (1 + A * (2 * al))) by (apply Rmult_le_pos; lra).
    destruct (Rle_lt_dec n A) as [C|C].
    + rewrite curve_attack by lra. lra.
    + apply Rabs_le_inv in B.
      assert (N2 : 1 < n / A). { apply Rmult_lt_reg_r with A; [exact A0|]. replace (n / A * A) with n by (field; lra). lra. }
      assert (R1 := curve_lip A D L n A A0 D0 ltac:(lra)). fold ka in R1. rewrite (Rabs_pos_eq (n - A)) in R1 by lra.
      rewrite (curve_attack A D L A) in R1 by lra. replace (A / A) with 1 in R1 by (field; lra). apply Rabs_le_inv in R1.
      pose proof (curve_range A D L n A0 D0 ltac:(lra) ltac:(lra)) as R2.
      assert (ka * (n - A) <= ka * (1 + A * (2 * al))) by (apply Rmult_le_compat_l; lra). apply Rabs_le. lra.
  - (* then the decay *)
    destruct (AT us) as [X _]. destruct (X S1) as (_ & N1 & _). destruct (AT (us ++ [x])) as [_ Y]. specialize (Y ltac:(rewrite S2; discriminate)).
    rewrite app_length, plus_INR in Y. change (INR (length [x])) with 1 in Y.
    set (e1 := after_n e0 (us ++ [x])) in *. destruct (after_n_inv e0 (us ++ [x]) K I) as (K1 & I1 & P1). fold e1 in K1, I1, P1.
    rewrite EX. replace (us ++ x :: vs) with ((us ++ [x]) ++ vs) by (rewrite <- app_assoc; reflexivity). rewrite after_n_cat. fold e1.
    rewrite !app_length, !plus_INR. change (INR (length [x])) with 1. set (n0 := INR (length us) + 1) in *. set (n := INR (length vs)). assert (N0 : 0 <= n) by apply pos_INR.
    assert (LP := curve_lip A D L (n0 + n) (A + n) A0 D0 ltac:(lra)). fold ka in LP. replace (n0 + n - (A + n)) with (n0 - A) in LP by ring.
    assert (AN : Rabs (n0 - A) <= 1 + A * (2 * al)) by (apply Rabs_le; unfold n0 in *; lra).
    assert (LK : ka * Rabs (n0 - A) <= ka * (1 + A * (2 * al))) by (apply Rmult_le_compat_l; lra).
    rewrite (curve_decay A D L n A0 D0 ltac:(lra) N0) in LP.
    destruct P1 as (_ & PD & PS & _). destruct one32 as [F1' V1].
    pose proof (fall_drift e1 Decay (ad_d e1) (ad_s e1) 0 K1 I1 (or_introl (conj eq_refl (conj eq_refl eq_refl))) S2) as TT. rewrite PD, PS in TT.
    specialize (TT F1 F2 ltac:(lia)). rewrite G2, V1 in TT. specialize (TT ltac:(change (bpow radix2 0) with 1; lra) vs). cbv zeta in TT. fold n in TT.
    change (bpow radix2 (0 - 25)) with (bpow radix2 (-25)) in TT. change (bpow radix2 0) with 1 in TT. set (st := B2R (ad_d e0)) in *. set (lo := B2R (ad_s e0)) in *. set (g := B2R (ad_g (after_n e1 vs))) in *.
    change (ad_s (adsr_new m a d s r)) with (ad_s e0) in F8. change (ad_d (adsr_new m a d s r)) with (ad_d e0) in F3. fold st in F3. fold lo in F8.
    assert (LL : Rabs (lo - L) <= bpow radix2 (-22)).
    { eapply Rle_trans; [exact F8|]. assert (bpow radix2 (-149) <= bpow radix2 (-23)) by (apply bpow_le; lia). change (bpow radix2 (-23)) with (/ 8388608) in *. change (bpow radix2 (-22)) with (/ 4194304). lra. }
    assert (LO1 : lo <= 1). { destruct K as (_ & _ & Ks & Ks1 & _). destruct (fle_fin_between (ad_s e0) Ks Ks1) as (_ & Q). apply Q. }
    set (p := (1 - L) / D) in *. set (eta := bpow radix2 (-25) + bpow radix2 (-22) / D).
    assert (eta0 : 0 <= eta) by (unfold eta; pose proof (bpow_gt_0 radix2 (-25)); assert (0 < bpow radix2 (-22) / D) by (apply Rmult_lt_0_compat; [apply bpow_gt_0|exact ID]); lra).
    apply Rabs_le_inv in F3.
    assert (E1 : n * - (bpow radix2 (-22) / D) <= n * (st + p)) by (apply Rmult_le_compat_l; lra).
    assert (E2 : n * (st + p) <= n * (bpow radix2 (-22) / D)) by (apply Rmult_le_compat_l; lra).
    assert (NE : n * eta = n * bpow radix2 (-25) + n * (bpow radix2 (-22) / D)) by (unfold eta; ring).
    assert (P22 : 0 <= bpow radix2 (-22)) by apply bpow_ge_0.
    assert (CS : (lo <= g <= L + (1 - L) /\ Rabs (g - (L + (1 - L) - n * p)) <= n * eta) \/ (g = lo /\ L + (1 - L) - n * p - n * eta <= lo /\ lo <= L + (1 - L))).
    { destruct TT as [(_ & B & G1 & GT)|(_ & G1 & B)].
      - left. apply Rabs_le_inv in B. split; [split; [|lra]|apply Rabs_le; lra].
        destruct vs as [|v vs']; [|left; apply GT; discriminate]. unfold g. change (after_n e1 []) with e1. rewrite G2, V1. exact LO1.
      - right. split; [unfold g; rewrite G1; reflexivity|]. lra. }
    destruct (fall_real L (1 - L) p eta _ lo n g S0 eta0 P22 ltac:(lra) LL N0 CS) as [B1 B2]. replace (L + (1 - L) - n * p) with (1 - n * p) in B1, B2 by ring.
    set (v := Rmax L (1 - n * p)) in *.
    assert (BB : Rabs (g - v) <= D * bpow radix2 (-23) + bpow radix2 (-19)).
    { assert (DP : 0 <= D * bpow radix2 (-23)) by (apply Rmult_le_pos; [lra|apply bpow_ge_0]).
      destruct (Rle_lt_dec (1 - L) (bpow radix2 (-22))) as [C|C].
      - eapply Rle_trans; [exact B1|]. change (bpow radix2 (-19)) with (/ 524288). change (bpow radix2 (-22)) with (/ 4194304) in *. lra.
      - assert (PP : 0 < p) by (apply Rmult_lt_0_compat; [lra|exact ID]). eapply Rle_trans; [exact (B2 PP)|].
        assert (Q : 2 * (1 - L + bpow radix2 (-22)) * eta / p <= 4 * (D * eta)).
        { apply Rmult_le_reg_r with p; [exact PP|]. replace (2 * (1 - L + bpow radix2 (-22)) * eta / p * p) with (eta * (2 * (1 - L + bpow radix2 (-22)))) by (field; lra).
          replace (4 * (D * eta) * p) with (eta * (4 * (1 - L))) by (unfold p; field; lra). apply Rmult_le_compat_l; lra. }
        assert (DE' : D * eta = D * bpow radix2 (-25) + bpow radix2 (-22)) by (unfold eta; field; lra). rewrite DE' in Q.
        change (bpow radix2 (-19)) with (/ 524288). change (bpow radix2 (-22)) with (/ 4194304) in *. change (bpow radix2 (-25)) with (/ 33554432) in *. change (bpow radix2 (-23)) with (/ 8388608). lra. }
    apply Rabs_le_inv in BB, LP. apply Rabs_le. lra.
Qed.

(** released after any number of samples *)
Lemma released_envelope xs zs : A <= bpow radix2 22 ->
  Rabs (B2R (ad_g (after_n (adsr_release (after_n (adsr_new m a d s r) xs)) zs)) - adsr_released A D L T (INR (length xs)) (INR (length zs))) <= adsr_err A D L + release_err L T.
Proof.
  intro HA22. pose proof (held_envelope xs HA22) as HE. rewrite (after_history (adsr_new m a d s r) xs) in HE |- *. pose proof (dur_pos r Pr) as DP. assert (T0 : 0 < T) by (unfold T; lra).
  assert (NI : s <> B754_infinity true) by (intro C; subst; discriminate Fs).
  destruct (new_steps m a d s r HU HA Fs Hs Pd Pr) as (_ & _ & _ & F1 & F2 & F3 & _ & _ & F9). fold L T in F3, F9.
  destruct Pa as [Da Pa'], Pd as [Dd Pd'], Pr as [Dr Pr']. destruct (adsr_new_ok m a d r s HU NI Da Dd Dr Pa' Pd' Pr') as [K I].
  destruct (adsr_history _ K I (map Proc xs)) as (P & I'). set (e := adsr_after _ _) in *. pose proof (adsr_params_ok _ _ P K) as K'.
  destruct P as (_ & _ & _ & PR). destruct I' as (Fg & Hg & I'').
  pose proof (fall_drift (adsr_release e) Release (ad_r e) f0 0 K' (release_inv _ (conj Fg (conj Hg I''))) (release_fall e) eq_refl) as X. rewrite PR in X.
  specialize (X F1 F2 ltac:(lia) ltac:(change (bpow radix2 0) with 1; apply Hg) zs). cbv zeta in X. change (ad_g (adsr_release e)) with (ad_g e) in X. change (B2R (f0 : f32)) with 0 in X.
  set (n := INR (length zs)) in *. set (st := B2R (ad_r (adsr_new m a d s r))) in *. set (g0 := B2R (ad_g e)) in *. set (g := after_n (adsr_release e) zs) in *.
  assert (N0 : 0 <= n) by apply pos_INR. apply Rabs_le_inv in F3. change (bpow radix2 (0 - 25)) with (bpow radix2 (-25)) in X. change (bpow radix2 0) with 1 in X.
  set (p := L / T) in *. assert (PP : 0 < p) by (apply Rmult_lt_0_compat; [lra|apply Rinv_0_lt_compat; exact T0]).
  assert (SM : bpow radix2 (-149) <= bpow radix2 (-25)) by (apply bpow_le; lia).
  set (eta := 2 * bpow radix2 (-25) + p * bpow radix2 (-22)). pose proof (bpow_gt_0 radix2 (-25)) as PB. assert (PW : 0 < p * bpow radix2 (-22)) by (apply Rmult_lt_0_compat; [exact PP|apply bpow_gt_0]).
  assert (E1 : n * - (p * bpow radix2 (-22) + bpow radix2 (-25)) <= n * (st + p)) by (apply Rmult_le_compat_l; lra).
  assert (E2 : n * (st + p) <= n * (p * bpow radix2 (-22) + bpow radix2 (-25))) by (apply Rmult_le_compat_l; lra).
  assert (NE : n * eta = 2 * (n * bpow radix2 (-25)) + n * (p * bpow radix2 (-22))) by (unfold eta; ring).
  assert (CS : (0 <= B2R (ad_g g) <= 0 + g0 /\ Rabs (B2R (ad_g g) - (0 + g0 - n * p)) <= n * eta) \/ (B2R (ad_g g) = 0 /\ 0 + g0 - n * p - n * eta <= 0 /\ 0 <= 0 + g0)).
  { assert (G0 : 0 <= n * bpow radix2 (-25)) by (apply Rmult_le_pos; lra). destruct X as [(_ & B & G1 & GT)|(_ & G1 & B)].
    - left. apply Rabs_le_inv in B. split; [|apply Rabs_le; lra].
      assert (MON : B2R (ad_g g) <= g0).
      { pose proof (fall_drift (adsr_release e) Release (ad_r e) f0 0 K' (release_inv _ (conj Fg (conj Hg I''))) (release_fall e) eq_refl) as Y. rewrite PR in Y.
        clear - F1 F2 Y K' Fg Hg I'' PR. unfold st in F2. unfold g. fold g0. assert (forall zs, B2R (ad_g (after_n (adsr_release e) zs)) <= g0) as Q; [|apply Q].
        intro ws. induction ws as [|w ws IH] using rev_ind; [apply Rle_refl|].
        specialize (Y F1 F2 ltac:(lia) ltac:(change (bpow radix2 0) with 1; apply Hg) ws). cbv zeta in Y. rewrite after_n_app.
        destruct (after_n_inv (adsr_release e) ws K' (release_inv _ (conj Fg (conj Hg I'')))) as (K1 & I1 & P1). set (e1 := after_n (adsr_release e) ws) in *.
        destruct Y as [(S1 & _)|(S1 & _)].
        + pose proof (fall_params _ _ _ _ _ P1 (release_fall e)) as FP. rewrite (fall_process e1 Release (ad_r e) f0 w FP S1). cbv zeta. cbn [snd].
          destruct I1 as (Fg1 & Hg1 & _). rewrite PR. destruct (fadd_le (ad_g e1) (ad_r (adsr_new m a d s r)) 65536 Fg1 F1) as (FF & VV & _); [apply (fmt32_Z 65536); lia|pose proof bpow_128_big; lra|apply Rabs_le; lra|].
          destruct (fle (fadd (ad_g e1) (ad_r (adsr_new m a d s r))) f0); cbn [adsr_set ad_g]; [change (B2R (f0 : f32)) with 0; apply Hg|].
          rewrite VV. apply Rle_trans with (B2R (ad_g e1)); [|exact IH]. apply (rnd_le_fmt (prec:=24) (emax:=128)); [apply fmt_B2R|lra].
        + cbn [next_phase] in S1. unfold adsr_process. rewrite S1. cbn [snd]. exact IH. }
      rewrite Rplus_0_l. split; [|exact MON]. destruct zs as [|z zs']; [apply Hg|left; apply GT; discriminate].
    - right. split; [rewrite G1; reflexivity|]. lra. }
  destruct (fall_real 0 g0 p eta 0 0 n (B2R (ad_g g)) (Rlt_le _ _ PP) ltac:(unfold eta; lra) (Rle_refl 0) (proj1 Hg) ltac:(rewrite Rminus_0_r, Rabs_R0; lra) N0 CS) as [_ B2]. specialize (B2 PP).
  rewrite Rplus_0_l, !Rplus_0_r in B2.
  assert (Q : 2 * g0 * eta / p <= release_err L T).
  { unfold release_err. apply Rle_trans with (2 * 1 * eta / p).
    - apply Rmult_le_compat_r; [left; apply Rinv_0_lt_compat; exact PP|]. apply Rmult_le_compat_r; [unfold eta; lra|]. destruct Hg as [_ Hg]. fold g0 in Hg. lra.
    - right. unfold eta, p. change (bpow radix2 (-25)) with (/ 33554432). change (bpow radix2 (-22)) with (/ 4194304). change (bpow radix2 (-23)) with (/ 8388608). change (bpow radix2 (-21)) with (/ 2097152). field. lra. }
  assert (MX : Rabs (Rmax 0 (g0 - n * p) - adsr_released A D L T (INR (length xs)) n) <= adsr_err A D L).
  { unfold adsr_released. assert (EX : 0 <= adsr_err A D L) by (eapply Rle_trans; [apply Rabs_pos|exact HE]). apply Rmax_lip; [rewrite Rminus_0_r, Rabs_R0; exact EX|].
    replace (g0 - n * p - (adsr_curve A D L (INR (length xs)) - n * L / T)) with (g0 - adsr_curve A D L (INR (length xs))) by (unfold p, Rdiv; ring). exact HE. }
  apply Rabs_le_inv in B2, MX. apply Rabs_le. lra.
Qed.
End Envelope.
