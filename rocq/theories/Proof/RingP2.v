(** * Linear modifiers in a feedback loop: rounding errors, tones *)
From Coq Require Import ZArith List Bool Arith Reals Lra Lia Psatz Wf_nat.
From Flocq Require Import Core.Core IEEE754.BinarySingleNaN Relative Plus_error.
From Verif Require Import Model.Floats Model.Utils Model.Generators Model.Modifiers Model.Filters Model.Sounds Model.Parts
  Spec.Libm Spec.Response Spec.Track Spec.Parts Spec.Chain Spec.Convolve Spec.Ring
  Proof.FloatFacts Proof.SampleFormatP Proof.SoundsP2 Proof.PartsP Proof.ChainP2 Proof.ChainP3 Proof.ChainP4 Proof.ConvolveP Proof.ConvolveP2 Proof.ConvolveP3 Proof.RackP Proof.RingP.
Import ListNotations.
Local Open Scope R_scope.

(** ** sums that start from zero are not minus zero *)
Lemma fadd_not_mz (a x : f32) : a <> B754_zero true -> fadd a x <> B754_zero true.
Proof.
  intros H E. assert (FE : fin (fadd a x)) by (rewrite E; reflexivity).
  assert (fin a /\ fin x) as [Fa Fx] by (destruct a, x; try discriminate; try (split; reflexivity); cbn in FE; try discriminate; destruct s, s0; discriminate).
  unfold fadd in E, FE. match type of E with @Bplus _ _ ?hp ?he _ _ _ = _ => pose proof (Bplus_correct 24 128 hp he mode_NE a x Fa Fx) as C end.
  destruct (Rlt_bool _ _) in C.
  - destruct C as (V & _ & S1). rewrite E in V, S1. change (B2R (B754_zero true : f32)) with 0 in V. cbn [Bsign] in S1.
    assert (Z : B2R a + B2R x = 0).
    { destruct (Req_dec (B2R a + B2R x) 0) as [Q|Q]; [exact Q|]. exfalso. symmetry in V. revert V. apply round_plus_neq_0; try typeclasses eauto; try apply generic_format_B2R. exact Q. }
    rewrite Z, Rcompare_Eq in S1 by reflexivity. symmetry in S1. apply andb_true_iff in S1. destruct S1 as [SA SX].
    destruct a as [s|s| |s k e Ha]; try discriminate; cbn [Bsign] in SA; subst; try congruence.
    assert (NA : B2R (B754_finite true k e Ha : f32) < 0) by (cbn [B2R]; apply F2R_lt_0; reflexivity).
    destruct x as [s|s| |s k' e' Hx]; try discriminate; cbn [Bsign] in SX; subst.
    assert (NX : B2R (B754_finite true k' e' Hx : f32) < 0) by (cbn [B2R]; apply F2R_lt_0; reflexivity). lra.
  - destruct C as [C _]. rewrite E in C. discriminate.
Qed.
Lemma plus_zero_same (x : f32) : x <> B754_zero true -> fadd f0 x = x.
Proof. destruct x as [[|]| | |]; try reflexivity. congruence. Qed.
Lemma sum_in_same l : fadd f0 (sum_in l) = sum_in l.
Proof.
  apply plus_zero_same. unfold sum_in. assert (H : (f0 : f32) <> B754_zero true) by discriminate. revert H. generalize (f0 : f32). induction l as [|x l IH]; intros a H; [exact H|]. cbn [fold_left]. apply IH, fadd_not_mz, H.
Qed.

(** ** a round of the loop *)
Section Round.
Variables (m : libm) (ps : list lpart) (U X : R) (zs us vs : list f32).
Hypothesis HC : cos_accurate m. Hypothesis HP : pow_int_accurate m. Hypothesis HT : tan_accurate m.
Hypothesis OK : forall p, In p ps -> l_ok m p.
Hypothesis U0 : bpow radix2 (-100) <= U.
Hypothesis UA : chain_amp m ps U <= bpow radix2 90.
Hypothesis ROOM : (1 + bpow radix2 (-24)) * (X + ring_gain m ps * U + chain_err m ps 0 U) <= U.
Hypothesis HZ : forall z, In z zs -> fin z /\ Rabs (B2R z) <= X.
Hypothesis LU : length us = length zs.
Hypothesis RUN : pipeline (b_prime kit kit_prime) (b_process kit (kit_process m)) (map (chain_block m) ps) us = Ok vs.
Hypothesis SUM : forall k, (k < length zs)%nat -> nth k us f0 = match k with O => fadd f0 (nth 0 zs f0) | S j => fadd (fadd f0 (nth j vs f0)) (nth k zs f0) end.
Lemma round_of k : (k < length zs)%nat -> fin (nth k us f0) /\ Rabs (B2R (nth k us f0)) <= U /\
  Rabs (B2R (nth k us f0) - (exact_of zs k + one_late (conv (chain_h m ps) (exact_of us)) k)) <= ring_noise m ps U.
Proof.
  assert (UP : 0 < U) by (pose proof (bpow_gt_0 radix2 (-100)); lra).
  assert (C0 : 0 <= chain_err m ps 0 U) by (apply chain_err_pos; [exact OK|lra|lra]).
  assert (HG : forall k, sum_f_R0 (fun i => Rabs (chain_h m ps i)) k <= ring_gain m ps) by (intro; apply chain_abs_sum, OK).
  assert (GP : 0 <= ring_gain m ps) by (specialize (HG 0%nat); cbn [sum_f_R0] in HG; pose proof (Rabs_pos (chain_h m ps 0)); lra).
  assert (GU : 0 <= ring_gain m ps * U) by (apply Rmult_le_pos; lra).
  assert (B24 : 0 < bpow radix2 (-24)) by apply bpow_gt_0.
  induction k as [k IH] using lt_wf_ind. intro Hk. rewrite (SUM k Hk).
  assert (ZK : fin (nth k zs f0) /\ Rabs (B2R (nth k zs f0)) <= X) by (apply HZ, nth_In, Hk). destruct ZK as [FZ BZ].
  assert (X0 : 0 <= X) by (pose proof (Rabs_pos (B2R (nth k zs f0))); lra).
  assert (XU : X <= U) by nra.
  unfold ring_noise. assert (BU : 0 < bpow radix2 (-24) * U) by (apply Rmult_lt_0_compat; assumption).
  destruct k as [|j].
  - destruct (zero_plus (nth 0 zs f0) FZ) as [F V]. rewrite V. split; [exact F|]. split; [lra|]. unfold one_late, exact_of. rewrite Rplus_0_r, Rminus_diag_eq, Rabs_R0 by reflexivity. lra.
  - set (xs := firstn (S j) us). assert (LX : length xs = S j) by (unfold xs; rewrite firstn_length; lia).
    assert (NX : forall i, (i <= j)%nat -> nth i xs f0 = nth i us f0).
    { intros i Hi. rewrite <- (firstn_skipn (S j) us). fold xs. rewrite app_nth1 by lia. reflexivity. }
    assert (IX : forall x, In x xs -> fin x /\ Rabs (B2R x) <= U).
    { intros x Hx. apply (In_nth _ _ f0) in Hx. destruct Hx as (i & Hi & <-). rewrite NX by lia. destruct (IH i ltac:(lia) ltac:(lia)) as (A & B & _). exact (conj A B). }
    destruct (chain_convolves m ps HC HP HT OK (exact_of xs) 0 U xs (Rle_refl 0) U0 UA (near_exact xs U IX)) as (ys & E & L & N).
    pose proof (pipeline_firstn _ _ (S j) _ _ _ RUN) as PF. fold xs in PF. rewrite PF in E. assert (EY : ys = firstn (S j) vs) by congruence.
    assert (NY : nth_error ys j = Some (nth j vs f0)).
    { rewrite (nth_error_nth' ys f0) by lia. f_equal. rewrite EY. rewrite <- (firstn_skipn (S j) vs) at 2. rewrite app_nth1; [reflexivity|]. rewrite <- EY. lia. }
    destruct (N j _ NY) as (FV & _ & DV).
    assert (CE : conv (chain_h m ps) (exact_of xs) j = conv (chain_h m ps) (exact_of us) j) by (apply conv_ext; [reflexivity|]; intros i Hi; unfold exact_of; rewrite NX by exact Hi; reflexivity).
    rewrite CE in DV. set (c := conv (chain_h m ps) (exact_of us) j) in *.
    assert (BC : Rabs c <= ring_gain m ps * U) by (apply conv_le; [exact HG|lra|]; intros i Hi; apply (IH i); lia).
    destruct (zero_plus (nth j vs f0) FV) as [FV' VV]. set (v := fadd f0 (nth j vs f0)) in *. set (z := nth (S j) zs f0) in *.
    assert (BS : Rabs (B2R v + B2R z) <= X + ring_gain m ps * U + chain_err m ps 0 U) by (rewrite VV; apply Rabs_le; apply Rabs_le_inv in BC, BZ, DV; lra).
    set (M := X + ring_gain m ps * U + chain_err m ps 0 U) in *. assert (M0 : 0 <= M) by (unfold M; lra). assert (RM : (1 + bpow radix2 (-24)) * M <= U) by exact ROOM.
    assert (MU' : M <= U) by nra. assert (EM : M = X + ring_gain m ps * U + chain_err m ps 0 U) by reflexivity. clearbody M.
    assert (MU : M <= bpow radix2 120).
    { apply Rle_trans with U; [exact MU'|]. eapply Rle_trans; [apply (amp_grows m ps OK U); lra|]. eapply Rle_trans; [exact UA|]. apply bpow_le. lia. }
    destruct (add_err v z M FV' FZ BS MU) as (FA & EA). split; [exact FA|]. unfold one_late. change (exact_of zs (S j)) with (B2R z). fold c.
    assert (bpow radix2 (-24) * M <= bpow radix2 (-24) * U) by (apply Rmult_le_compat_l; lra).
    rewrite <- VV in DV. apply Rabs_le_inv in EA, DV, BS. split; apply Rabs_le; lra.
Qed.
Lemma ring_gain_lt : 0 <= X -> ring_gain m ps < 1.
Proof.
  intro X0. assert (UP : 0 < U) by (pose proof (bpow_gt_0 radix2 (-100)); lra). assert (C0 : 0 <= chain_err m ps 0 U) by (apply chain_err_pos; [exact OK|lra|lra]).
  assert (B24 : 0 < bpow radix2 (-24)) by apply bpow_gt_0. destruct (Rlt_le_dec (ring_gain m ps) 1) as [|L]; [assumption|]. exfalso.
  assert (U <= ring_gain m ps * U) by (rewrite <- (Rmult_1_l U) at 1; apply Rmult_le_compat_r; lra). nra.
Qed.
Lemma ring_near u : 0 <= X -> ring_solves (chain_h m ps) (exact_of zs) u -> near_signal u (ring_noise m ps U / (1 - ring_gain m ps)) U us.
Proof.
  intros X0 HU. pose proof (ring_gain_lt X0) as GL. intros j v Hj. assert (Lj : (j < length zs)%nat) by (rewrite <- LU; apply nth_error_Some; congruence).
  assert (EV : nth j us f0 = v) by (apply nth_error_nth; exact Hj). destruct (round_of j Lj) as (A & B & _). rewrite EV in A, B. split; [exact A|]. split; [exact B|].
  assert (N0 : 0 <= ring_noise m ps U) by (destruct (round_of j Lj) as (_ & _ & Q); pose proof (Rabs_pos (B2R (nth j us f0) - (exact_of zs j + one_late (conv (chain_h m ps) (exact_of us)) j))); lra).
  pose proof (ring_stable (chain_h m ps) (ring_gain m ps) (fun k => chain_abs_sum m ps k OK) GL (ring_noise m ps U) (fun n => exact_of us n - u n) j N0) as RS.
  assert (RS' : Rabs (exact_of us j - u j) <= ring_noise m ps U / (1 - ring_gain m ps)).
  { apply RS; [|lia]. intros n Hn. destruct (round_of n ltac:(lia)) as (_ & _ & Q). rewrite (HU n). unfold exact_of at 1.
    replace (one_late (conv (chain_h m ps) (fun n => exact_of us n - u n)) n) with (one_late (conv (chain_h m ps) (exact_of us)) n - one_late (conv (chain_h m ps) u) n)
      by (destruct n; unfold one_late; [ring|rewrite conv_sub; reflexivity]).
    eapply Rle_trans; [|exact Q]. right. f_equal. ring. }
  unfold exact_of in RS'. rewrite EV in RS'. exact RS'.
Qed.
End Round.

(** ** tones *)
Lemma below_limit x G K rho : 0 <= rho < 1 -> (forall n, x <= G + K * rho ^ n) -> x <= G.
Proof.
  intros Hr H. apply le_epsilon. intros e He. destruct (pow_lt_1_zero rho ltac:(rewrite Rabs_pos_eq; lra) (e / (Rabs K + 1))) as (N & HN).
  { apply Rdiv_lt_0_compat; [exact He|pose proof (Rabs_pos K); lra]. }
  specialize (HN N (le_n N)). rewrite Rabs_pos_eq in HN by (apply pow_le; lra). pose proof (pow_le rho N ltac:(lra)) as P. specialize (H N). pose proof (Rabs_pos K) as KP. pose proof (Rle_abs K) as KA.
  assert (K * rho ^ N <= (Rabs K + 1) * rho ^ N) by (apply Rmult_le_compat_r; lra).
  assert ((Rabs K + 1) * rho ^ N <= (Rabs K + 1) * (e / (Rabs K + 1))) by (apply Rmult_le_compat_l; lra). replace ((Rabs K + 1) * (e / (Rabs K + 1))) with e in * by (field; lra). lra.
Qed.
Lemma response_small h H G om : (forall k, sum_f_R0 (fun i => Rabs (h i)) k <= G) -> responds h H -> fst (cmul (zi om) (H om)) <= G.
Proof.
  intros HG R. destruct (transforms_of h H R om) as [A B]. destruct (settles_K _ _ A) as (K1 & r1 & K10 & R1 & B1). destruct (settles_K _ _ B) as (K2 & r2 & K20 & R2 & B2).
  apply (below_limit _ _ (K1 + K2) (Rmax r1 r2)). { pose proof (Rmax_l r1 r2). split; [lra|apply Rmax_lub_lt; lra]. }
  intro n. set (F := fourier h om n). set (a := om * INR n + om).
  assert (Q : fst (cmul (zi om) F) <= G).
  { assert (T : tone om (cmul F (zi a)) n = fst (cmul (zi om) F)).
    { unfold a, tone, cmul, zi. cbn [fst snd]. rewrite cos_plus, sin_plus. pose proof (sin2_cos2 (om * INR n)) as Q. unfold Rsqr in Q. set (c := cos (om * INR n)) in *. set (s := sin (om * INR n)) in *.
      destruct F as [p q]. cbn [fst snd]. set (co := cos om). set (si := sin om). transitivity ((p * co + q * si) * (s * s + c * c)); [ring|rewrite Q; ring]. }
    rewrite <- T. unfold F. rewrite <- conv_tone. eapply Rle_trans; [apply Rle_abs|]. rewrite <- (Rmult_1_r G). apply conv_le; [exact HG|lra|].
    intros i _. unfold tone, zi. cbn [fst snd]. replace (cos a * cos (om * INR i) - - sin a * sin (om * INR i)) with (cos (a - om * INR i)) by (rewrite cos_minus; ring). apply Rabs_le. apply COS_bound. }
  specialize (B1 n). specialize (B2 n). cbn beta in B1, B2. fold F in B1, B2. unfold cmul, zi in *. cbn [fst snd] in *. pose proof (COS_bound om) as CB. pose proof (SIN_bound om) as SB.
  set (p := fst (H om)) in *. set (q := snd (H om)) in *.
  assert (M : forall x y, -1 <= y <= 1 -> Rabs (y * x) <= Rabs x) by (intros x y Hy; rewrite Rabs_mult; rewrite <- (Rmult_1_l (Rabs x)) at 2; apply Rmult_le_compat_r; [apply Rabs_pos|apply Rabs_le; lra]).
  pose proof (M (fst F - p) (cos om) CB) as M1. pose proof (M (snd F - q) (sin om) SB) as M2.
  assert (P1 : K1 * r1 ^ n <= K1 * Rmax r1 r2 ^ n) by (apply Rmult_le_compat_l; [exact K10|apply pow_incr; split; [lra|apply Rmax_l]]).
  assert (P2 : K2 * r2 ^ n <= K2 * Rmax r1 r2 ^ n) by (apply Rmult_le_compat_l; [exact K20|apply pow_incr; split; [lra|apply Rmax_r]]).
  pose proof (Rle_trans _ _ _ M1 B1) as M1'. pose proof (Rle_trans _ _ _ M2 B2) as M2'. apply Rabs_le_inv in M1', M2'. lra.
Qed.
Lemma ring_w_eq m ps om w : (forall p, In p ps -> l_ok m p) -> ring_gain m ps < 1 -> let W := ring_w m ps om w in
  W = cadd w (cmul (zi om) (cmul (chain_w m ps om (cre 1)) W)).
Proof.
  intros OK G1 W. pose proof (response_small _ _ _ om (fun k => chain_abs_sum m ps k OK) (chain_responds m ps OK)) as B. fold (ring_gain m ps) in B. cbn beta in B.
  unfold W, ring_w. clear W. set (H := chain_w m ps om (cre 1)) in *. destruct (zi om) as [c d]. destruct H as [p q]. destruct w as [x y]. unfold cmul in B. cbn [fst snd] in B.
  assert (P : 0 < (1 - (c * p - d * q)) * (1 - (c * p - d * q)) + (0 - (c * q + d * p)) * (0 - (c * q + d * p))).
  { assert (0 < (1 - (c * p - d * q)) * (1 - (c * p - d * q))) by (apply Rmult_lt_0_compat; lra). pose proof (Rle_0_sqr (0 - (c * q + d * p))) as Q. unfold Rsqr in Q. lra. }
  unfold cdiv, cmul, cinv, csub, cadd, cre, cn2. cbn [fst snd]. f_equal; field; lra.
Qed.
Section Tone.
Variables (m : libm) (ps : list lpart) (U X om K rho : R) (w : C).
Hypothesis HC : cos_accurate m. Hypothesis HP : pow_int_accurate m. Hypothesis HT : tan_accurate m.
Hypothesis OK : forall p, In p ps -> l_ok m p.
Hypothesis U0 : bpow radix2 (-100) <= U.
Hypothesis UA : chain_amp m ps U <= bpow radix2 90.
Hypothesis X0 : 0 <= X.
Hypothesis ROOM : (1 + bpow radix2 (-24)) * (X + ring_gain m ps * U + chain_err m ps 0 U) <= U.
Hypothesis K0 : 0 <= K. Hypothesis R0 : 0 <= rho < 1.
Lemma ring_tone : exists K' rho', 0 <= K' /\ 0 <= rho' < 1 /\ forall eps zs us vs, 0 <= eps -> near_tone om w eps K rho X zs -> length us = length zs ->
  pipeline (b_prime kit kit_prime) (b_process kit (kit_process m)) (map (chain_block m) ps) us = Ok vs ->
  (forall k, (k < length zs)%nat -> nth k us f0 = match k with O => fadd f0 (nth 0 zs f0) | S j => fadd (fadd f0 (nth j vs f0)) (nth k zs f0) end) ->
  near_tone om (ring_w m ps om w) ((eps + ring_noise m ps U) / (1 - ring_gain m ps)) K' rho' U us.
Proof.
  pose proof (ring_gain_lt m ps U X OK U0 ROOM X0) as GL. pose proof (chain_responds m ps OK) as RESP. destruct (decays_of _ _ (transforms_of _ _ RESP)) as (Kh & rh & Kh0 & Rh & DH).
  pose proof (ring_w_eq m ps om w OK GL) as WE. cbv zeta in WE. set (W := ring_w m ps om w) in *. set (h := chain_h m ps) in *. set (H := chain_w m ps om (cre 1)) in *.
  destruct (settles_K _ _ (RESP om W)) as (K1 & r1 & K10 & R1 & B1). fold H in B1.
  set (q := Rmax (Rmax rho r1) (/ 2)). assert (Q1 : rho <= q) by (eapply Rle_trans; [apply Rmax_l|apply Rmax_l]). assert (Q2 : r1 <= q) by (eapply Rle_trans; [apply Rmax_r|apply Rmax_l]).
  assert (Q3 : / 2 <= q) by apply Rmax_r. assert (Q4 : q < 1) by (apply Rmax_lub_lt; [apply Rmax_lub_lt; lra|lra]).
  set (K2 := K + 2 * K1 + csum w + csum W). pose proof (csum_pos w) as C1. pose proof (csum_pos W) as C2.
  destruct (ring_settles h (ring_gain m ps) (fun k => chain_abs_sum m ps k OK) GL Kh rh K2 q Kh0 Rh DH ltac:(unfold K2; lra) ltac:(lra)) as (C & r & C0 & R2 & RS).
  exists C, r. split; [exact C0|]. split; [exact R2|]. intros eps zs us vs He NZ LU RUN SUM.
  assert (HZ : forall z, In z zs -> fin z /\ Rabs (B2R z) <= X) by (intros z Hz; apply In_nth_error in Hz; destruct Hz as (j & Hj); destruct (NZ j z Hj) as (A & B & _); exact (conj A B)).
  pose proof (round_of m ps U X zs us vs HC HP HT OK U0 UA ROOM HZ LU RUN SUM) as RO.
  intros j v Hj. assert (Lj : (j < length zs)%nat) by (rewrite <- LU; apply nth_error_Some; congruence).
  assert (EV : nth j us f0 = v) by (apply nth_error_nth; exact Hj). destruct (RO j Lj) as (A & B & NN). rewrite EV in A, B. split; [exact A|]. split; [exact B|].
  assert (N0 : 0 <= ring_noise m ps U) by (eapply Rle_trans; [apply Rabs_pos|exact NN]).
  assert (E : Rabs (exact_of us j - tone om W j) <= (eps + ring_noise m ps U) / (1 - ring_gain m ps) + C * r ^ j).
  { apply (RS (eps + ring_noise m ps U) (fun n => exact_of us n - tone om W n) j ltac:(lra)); [|lia]. intros n Hn.
    destruct (RO n ltac:(lia)) as (_ & _ & D1). fold h in D1. unfold exact_of at 1. assert (NE : nth_error zs n = Some (nth n zs f0)) by (apply nth_error_nth'; lia).
    destruct (NZ n _ NE) as (_ & _ & D2). fold (exact_of zs n) in D2.
    assert (PQ : K * rho ^ n <= K * q ^ n) by (apply Rmult_le_compat_l; [exact K0|apply pow_incr; lra]). assert (P0 : 0 < q ^ n) by (apply pow_lt; lra).
    assert (D3 : Rabs (tone om w n + one_late (conv h (tone om W)) n - tone om W n) <= (2 * K1 + csum w + csum W) * q ^ n).
    { destruct n as [|k].
      - unfold one_late. cbn [pow]. pose proof (tone_csum om w 0) as T1. pose proof (tone_csum om W 0) as T2. apply Rabs_le_inv in T1, T2. apply Rabs_le. lra.
      - unfold one_late. rewrite WE at 2. rewrite tone_add. replace (tone om (cmul (zi om) (cmul H W)) (S k)) with (tone om (cmul H W) k).
        2:{ pose proof (tone_back om (cmul H W) (S k) 1 ltac:(lia)) as TB. cbn [INR] in TB. rewrite Rmult_1_r in TB. replace (S k - 1)%nat with k in TB by lia. symmetry. exact TB. }
        specialize (B1 k). replace (tone om w (S k) + conv h (tone om W) k - (tone om w (S k) + tone om (cmul H W) k)) with (conv h (tone om W) k - tone om (cmul H W) k) by ring.
        eapply Rle_trans; [exact B1|]. assert (K1 * r1 ^ k <= K1 * q ^ k) by (apply Rmult_le_compat_l; [exact K10|apply pow_incr; lra]). cbn [pow] in *.
        assert (PK : 0 < q ^ k) by (apply pow_lt; lra). assert (K1 * q ^ k <= 2 * K1 * (q * q ^ k)).
        { replace (2 * K1 * (q * q ^ k)) with (2 * q * (K1 * q ^ k)) by ring. rewrite <- (Rmult_1_l (K1 * q ^ k)) at 1. apply Rmult_le_compat_r; [apply Rmult_le_pos; lra|lra]. }
        assert (0 <= (csum w + csum W) * (q * q ^ k)) by (apply Rmult_le_pos; lra). lra. }
    replace (one_late (conv h (fun n => exact_of us n - tone om W n)) n) with (one_late (conv h (exact_of us)) n - one_late (conv h (tone om W)) n)
      by (destruct n; unfold one_late; [ring|rewrite (conv_sub h (exact_of us) (tone om W)); reflexivity]).
    unfold K2. apply Rabs_le. apply Rabs_le_inv in D1, D2, D3. lra. }
  unfold exact_of in E. rewrite EV in E. exact E.
Qed.
End Tone.
