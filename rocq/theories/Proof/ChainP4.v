(** * A sine through a chain of linear modifiers in a SimpleSound *)
From Coq Require Import ZArith List Bool Reals Lra Lia Psatz.
From Flocq Require Import Core.Core IEEE754.BinarySingleNaN.
From Verif Require Import Model.Floats Model.Utils Model.Generators Model.Modifiers Model.Filters Model.Sounds Model.Parts Spec.Libm Spec.Response Spec.Track Spec.Parts Spec.SoundSpec Spec.Chain
  Proof.FloatFacts Proof.GenericP Proof.GeneratorsP3 Proof.GeneratorsP4 Proof.FilterF32P2 Proof.BandPassP Proof.BandPassF32P Proof.TrackP Proof.SoundsP Proof.SoundsP2 Proof.SoundsP3 Proof.PartsP Proof.ChainP Proof.ChainP2 Proof.TapsP2 Proof.ChainP3.
Import ListNotations.
Local Open Scope R_scope.

(** ** sample by sample through all blocks = block by block through all samples *)
Section Pipe.
Context {B : Type} (prime : B -> f32 -> B) (process : B -> res (f32 * B)).
Lemma pipeline_cons b r xs : pipeline prime process (b :: r) xs = do ys <- outputs (run_res (cycle prime process) b (map (fun x => [x]) xs)); pipeline prime process r ys.
Proof. cbn [pipeline]. unfold outputs. destruct (run_res _ _ _) as [[ys b']|]; reflexivity. Qed.
Lemma series_cons xs : forall b r, outputs (run_res (series prime process) (b :: r) xs) =
  do ys <- outputs (run_res (cycle prime process) b (map (fun x => [x]) xs)); outputs (run_res (series prime process) r ys).
Proof.
  induction xs as [|x xs IH]; intros b r; [reflexivity|]. cbn [map]. rewrite !outputs_cons. cbn [series]. unfold cycle at 1. cbn [fold_left].
  destruct (process (prime b x)) as [[y b']|]; [|reflexivity]. cbn [bind].
  destruct (series prime process r y) as [[z r']|] eqn:E; cbn [bind].
  - rewrite IH. destruct (outputs (run_res (cycle prime process) b' (map (fun x => [x]) xs))) as [ys|]; [|reflexivity]. cbn [bind]. rewrite outputs_cons, E. reflexivity.
  - destruct (outputs (run_res (cycle prime process) b' (map (fun x => [x]) xs))) as [ys|]; [|reflexivity]. cbn [bind]. rewrite outputs_cons, E. reflexivity.
Qed.
Lemma series_nil xs : outputs (run_res (series prime process) [] xs) = Ok xs.
Proof. induction xs as [|x xs IH]; [reflexivity|]. rewrite outputs_cons. cbn [series bind]. rewrite IH. reflexivity. Qed.
Lemma series_pipeline bs : forall xs, outputs (run_res (series prime process) bs xs) = pipeline prime process bs xs.
Proof.
  induction bs as [|b r IH]; intro xs; [apply series_nil|]. rewrite series_cons, pipeline_cons.
  destruct (outputs (run_res (cycle prime process) b (map (fun x => [x]) xs))) as [ys|]; [|reflexivity]. cbn [bind]. apply IH.
Qed.
Lemma scaled_pipeline gi go xs : forall bs, outputs (run_res (scaled_series prime process gi go) bs xs) =
  do ys <- pipeline prime process bs (map (fun x => fmul x gi) xs); Ok (map (fun y => fmul y go) ys).
Proof.
  intro bs. rewrite <- series_pipeline. revert bs. induction xs as [|x xs IH]; intro bs; [reflexivity|]. cbn [map]. rewrite !outputs_cons. unfold scaled_series at 1.
  destruct (series prime process bs (fmul x gi)) as [[y bs']|]; [|reflexivity]. cbn [bind]. rewrite IH.
  destruct (outputs (run_res (series prime process) bs' (map (fun x => fmul x gi) xs))); reflexivity.
Qed.
(** the first k outputs come from the first k inputs *)
Lemma outputs_firstn {St X Y} (step : St -> X -> res (Y * St)) k : forall xs s ys, outputs (run_res step s xs) = Ok ys -> outputs (run_res step s (firstn k xs)) = Ok (firstn k ys).
Proof.
  induction k as [|k IH]; intros xs s ys E; [reflexivity|]. destruct xs as [|x xs]; [injection E as <-; reflexivity|].
  rewrite outputs_cons in E. cbn [firstn]. rewrite outputs_cons. destruct (step s x) as [[y s']|]; [|discriminate]. cbn [bind] in *.
  destruct (outputs (run_res step s' xs)) as [zs|] eqn:Z; [|discriminate]. cbn [bind] in E. injection E as <-. rewrite (IH _ _ _ Z). reflexivity.
Qed.
Lemma pipeline_firstn k bs : forall xs ys, pipeline prime process bs xs = Ok ys -> pipeline prime process bs (firstn k xs) = Ok (firstn k ys).
Proof.
  induction bs as [|b r IH]; intros xs ys E; [injection E as <-; reflexivity|]. rewrite pipeline_cons in *.
  destruct (outputs (run_res (cycle prime process) b (map (fun x => [x]) xs))) as [zs|] eqn:Z; [|discriminate]. cbn [bind] in E.
  rewrite <- firstn_map, (outputs_firstn _ k _ _ _ Z). cbn [bind]. apply IH, E.
Qed.
End Pipe.
Lemma sound_pipeline U (up : U -> f32 -> U) (uo : U -> res (f32 * U)) gi go g calls h b bs xs :
  NoDup (g :: added calls) -> map (get_mut U h) (g :: added calls) = map Some (b :: bs) ->
  outputs (run_res (ss_process U up uo (fold_left madd_step calls (ss_new gi go g))) h xs) =
  do ys <- pipeline (b_prime U up) (b_process U uo) (b :: bs) (map (fun x => fmul x (to32 gi)) xs); Ok (map (fun y => fmul y (to32 go)) ys).
Proof. intros ND H. rewrite (built_series U up uo gi go g calls h b bs xs ND H). apply scaled_pipeline. Qed.

(** ** blocks of the kit *)
Lemma user_cycle {U} (up : U -> f32 -> U) (uo : U -> res (f32 * U)) xss : forall u,
  outputs (run_res (cycle (b_prime U up) (b_process U uo)) (User U u) xss) = outputs (run_res (cycle up uo) u xss).
Proof.
  assert (P : forall l u, fold_left (b_prime U up) l (User U u) = User U (fold_left up l u)) by (induction l as [|x l IH]; intro u; [reflexivity|cbn [fold_left b_prime]; apply IH]).
  induction xss as [|xs r IH]; intro u; [reflexivity|]. rewrite !outputs_cons. unfold cycle at 1 3. rewrite P. cbn [b_process]. destruct (uo (fold_left up xs u)) as [[y u']|]; [|reflexivity].
  cbn [bind]. rewrite IH. reflexivity.
Qed.
Lemma mod_fed m p xs : run_res (mod_alone (m_step m)) p (map (fun x => [x]) xs) = run_res (m_step m) p (map (fadd f0) xs).
Proof. revert p. induction xs as [|x r IH]; intro p; [reflexivity|]. cbn [map run_res]. change (mod_alone (m_step m) p [x]) with (m_step m p (fadd f0 x)). destruct (m_step m p (fadd f0 x)) as [[y p']|]; [|reflexivity]. cbn [bind]. rewrite IH. reflexivity. Qed.
Lemma zero_plus (x : f32) : fin x -> fin (fadd f0 x) /\ B2R (fadd f0 x) = B2R x.
Proof. destruct x as [[]|[]| |s k e H]; intro F; try discriminate; split; reflexivity. Qed.
Lemma near_zero om w eps K rho X xs : near_tone om w eps K rho X xs -> near_tone om w eps K rho X (map (fadd f0) xs).
Proof.
  intros N j y E. rewrite nth_error_map in E. destruct (nth_error xs j) as [x|] eqn:Ex; [|discriminate]. injection E as <-. destruct (N j x Ex) as (A & B).
  destruct (zero_plus x A) as [FZ VZ]. split; [exact FZ|]. rewrite <- VZ in B. exact B.
Qed.

Lemma rad_pos f : 0 < f -> 0 < rad f.
Proof. intro H. unfold rad. pose proof PI_RGT_0. apply Rmult_lt_0_compat; [|lra]. apply Rmult_lt_0_compat; lra. Qed.
Lemma inv_le a : 0 < a -> 0 < / a. Proof. apply Rinv_0_lt_compat. Qed.
Lemma part_grows m p : l_ok m p -> 0 <= l_gain m p /\ 0 <= l_drift m p.
Proof.
  destruct p as [|a|d|d g|fc r|fc r|f q|z p]; intro H; cbn [l_gain l_drift] in *; try lra.
  - destruct H as [_ H]. pose proof (Rabs_pos (B2R a)). split; [assumption|]. apply Rmult_le_pos; [apply bpow_ge_0|lra].
  - destruct H as (_ & _ & H). set (a := Rabs (B2R (to32 g))) in *. cbv zeta. split; [left; apply inv_le; lra|]. apply Rmult_le_pos; [apply bpow_ge_0|left; apply inv_le, Rmult_lt_0_compat; lra].
  - destruct (params_ok fc r H) as ((_ & Bf) & _). change (clamp_fc fc) with (lp_fc (lp_new m fc r)) in Bf. assert (P := rad_pos (B2R (lp_fc (lp_new m fc r))) ltac:(lra)). unfold lp_drift. cbv zeta. set (u := rad _) in *. clearbody u.
    assert (I := inv_le u P). assert (I3 := inv_le (u ^ 3) ltac:(apply pow_lt; exact P)). unfold Rdiv. assert (0 <= u * u) by nra.
    split; [lra|]. apply Rmult_le_pos; [apply Rmult_le_pos; [apply bpow_ge_0|lra]|]. assert (0 <= (7 + 6 * u + 2 * (u * u)) * (12 * / u + 6) * / u ^ 3); [|lra].
    apply Rmult_le_pos; [apply Rmult_le_pos; lra|lra].
  - destruct (params_ok fc r H) as ((_ & Bf) & _). change (clamp_fc fc) with (hp_fc (hp_new m fc r)) in Bf. assert (P := rad_pos (B2R (hp_fc (hp_new m fc r))) ltac:(lra)). unfold hp_drift. cbv zeta. set (u := rad _) in *. clearbody u.
    assert (I := inv_le u P). assert (I3 := inv_le (u ^ 3) ltac:(apply pow_lt; exact P)). unfold Rdiv. assert (0 <= u * u) by nra.
    split; [lra|]. apply Rmult_le_pos; [apply Rmult_le_pos; [apply bpow_ge_0|lra]|].
    apply Rmult_le_pos; [|lra]. assert (0 <= (7 + 6 * u + 2 * (u * u)) * (48 * / u + 26)) by (apply Rmult_le_pos; lra). lra.
  - destruct H as [HL HH]. destruct (audible_R _ HL) as [_ RL]. destruct (audible_R _ HH) as [_ RH]. unfold bp_drift.
    set (lo := B2R (fst _)) in *. set (hi := B2R (snd _)) in *.
    assert (GP : forall f, 20 <= f <= 20000 -> 0 < 1 - Rabs (pole_at f)).
    { intros c Hc. assert (PL : 0 < bp_theta AR c) by (apply bp_theta_pos; lra). pose proof (Rabs_lt1 _ (bp_bl_range _ PL)) as Q.
      change (bp_bl AR (bp_theta AR c)) with (pole_at c) in Q. lra. }
    assert (P := inv_le _ (Rmult_lt_0_compat _ _ (GP lo RL) (GP hi RH))). assert (Q := inv_le lo ltac:(lra)). unfold Rdiv.
    split; [apply Rmult_le_pos; lra|]. apply Rmult_le_pos; [apply Rmult_le_pos; [apply bpow_ge_0|lra]|lra].
  - destruct H as (_ & _ & _ & Wp & _). split; [apply taps_gain_pos, Wp|apply taps_drift_pos, Wp].
Qed.
Lemma amp_grows m ps : (forall p, In p ps -> l_ok m p) -> forall X, 0 <= X -> X <= chain_amp m ps X.
Proof.
  induction ps as [|p r IH]; intros OK X HX; cbn [chain_amp]; [lra|]. destruct (part_grows m p (OK p (or_introl eq_refl))) as [G D].
  assert (X <= (1 + l_gain m p + l_drift m p) * X) by nra. eapply Rle_trans; [exact H|]. apply IH; [intros q Hq; apply OK; right; exact Hq|lra].
Qed.

(** ** the chain *)
Lemma chain_passes m ps : cos_accurate m -> pow_int_accurate m -> tan_accurate m -> (forall p, In p ps -> l_ok m p) ->
  forall om w K rho X, 0 <= K -> 0 <= rho < 1 -> bpow radix2 (-100) <= X -> chain_amp m ps X <= bpow radix2 90 ->
  exists K' rho', 0 <= K' /\ 0 <= rho' < 1 /\ forall eps xs, 0 <= eps -> near_tone om w eps K rho X xs ->
    exists ys, pipeline (b_prime kit kit_prime) (b_process kit (kit_process m)) (map (chain_block m) ps) xs = Ok ys /\ length ys = length xs /\
      near_tone om (chain_w m ps om w) (chain_err m ps eps X) K' rho' (chain_amp m ps X) ys.
Proof.
  intros HC HP HT. induction ps as [|p r IH]; intros OK om w K rho X HK Hr HX HA.
  - exists K, rho. split; [exact HK|]. split; [exact Hr|]. intros eps xs He N. exists xs. split; [reflexivity|]. split; [reflexivity|exact N].
  - assert (OKr : forall q, In q r -> l_ok m q) by (intros q Hq; apply OK; right; exact Hq). assert (OKp := OK p (or_introl eq_refl)).
    destruct (part_grows m p OKp) as [G D]. assert (X0 : 0 < X) by (pose proof (bpow_gt_0 radix2 (-100)); lra).
    assert (XX : X <= (1 + l_gain m p + l_drift m p) * X) by nra. cbn [chain_amp] in HA.
    assert (AG := amp_grows m r OKr ((1 + l_gain m p + l_drift m p) * X) ltac:(lra)).
    destruct (part_passes m om w K rho X p HC HP HT HK Hr ltac:(lra) OKp) as (K1 & r1 & K1p & R1 & T1).
    destruct (IH OKr om (cmul (l_H m p om) w) K1 r1 ((1 + l_gain m p + l_drift m p) * X) K1p R1 ltac:(lra) HA) as (K2 & r2 & K2p & R2 & T2).
    exists K2, r2. split; [exact K2p|]. split; [exact R2|]. intros eps xs He N.
    destruct (T1 eps (map (fadd f0) xs) He (near_zero _ _ _ _ _ _ _ N)) as (ys & p' & E1 & L1 & N1). rewrite map_length in L1.
    destruct (T2 (l_drift m p * X + l_gain m p * eps) ys) as (zs & E2 & L2 & N2); [apply Rplus_le_le_0_compat; apply Rmult_le_pos; lra|exact N1|].
    exists zs. cbn [map]. rewrite pipeline_cons. unfold chain_block at 1. rewrite user_cycle, kit_modifier_filters, mod_fed, E1. cbn [outputs bind].
    split; [exact E2|]. split; [congruence|exact N2].
Qed.

Lemma tone_plays m s xss : outputs (run_res (cycle kit_prime (kit_process m)) (kit_generator (GSin s)) xss) = outputs (sin_run m (repeat GNext (length xss)) s).
Proof.
  rewrite kit_generator_plays. revert s. induction xss as [|xs r IH]; intro s; [reflexivity|]. rewrite outputs_cons. cbn [length repeat]. unfold sin_run. cbn [grun]. fold (sin_run m).
  unfold gen_alone at 1. cbn [g_step]. destruct (sin_process m s) as [[y s']|]; [|reflexivity]. cbn [bind]. rewrite IH. unfold outputs. destruct (sin_run m (repeat GNext (length r)) s') as [[ys s2]|]; reflexivity.
Qed.
Lemma sine_near m f n : sin_bounded m -> sin_zero m -> sin_accurate m -> fin f -> 0 <= B2R f <= 48000 -> 
  exists ys s', sin_run m (repeat GNext n) (sin_new f) = Ok (ys, s') /\ length ys = n /\ near_tone (rad (B2R f)) (0, -1) (bpow radix2 (-9) + INR (Nat.pred n) * bpow radix2 (-48)) 0 0 1 ys.
Proof.
  intros Sb Sz Sa F H. destruct (sin_accuracy m f n Sb Sz Sa F H) as (ys & s' & E & L & A). exists ys, s'. split; [exact E|]. split; [exact L|].
  destruct (sin_hist m (repeat GNext n) Sb) with (s := sin_new f) as (ys2 & s2 & E2 & _ & B).
  { apply Forall_forall. intros o Ho. apply repeat_spec in Ho. subst o. exact I. } { apply sin_new_inv; assumption. }
  rewrite E in E2. injection E2 as <- <-. intros j y Hj. assert (Lj : (j < n)%nat) by (rewrite <- L; apply nth_error_Some; congruence).
  destruct (A j Lj) as (y' & Ny & Fy & Ay). rewrite Hj in Ny. injection Ny as <-. split; [exact Fy|].
  rewrite Forall_forall in B. destruct (B y (nth_error_In _ _ Hj)) as [_ B1]. split; [apply Rabs_le; lra|].
  replace (tone (rad (B2R f)) (0, -1) j) with (sin (2 * PI * B2R f * INR j / 48000)).
  - rewrite Rmult_0_l, Rplus_0_r. eapply Rle_trans; [exact Ay|]. apply Rplus_le_compat_l, Rmult_le_compat_r; [apply bpow_ge_0|]. apply le_INR. lia.
  - unfold tone, rad. cbn [fst snd]. replace (2 * PI * B2R f / 48000 * INR j) with (2 * PI * B2R f * INR j / 48000) by field. ring.
Qed.

Lemma firstn_repeat' {A} (a : A) k : forall n, (k <= n)%nat -> firstn k (repeat a n) = repeat a k.
Proof. induction k as [|k IH]; intros n H; [reflexivity|]. destruct n as [|n]; [lia|]. cbn [repeat firstn]. rewrite IH by lia. reflexivity. Qed.
Lemma tone_pipeline m f ps :
  sin_bounded m -> sin_zero m -> sin_accurate m -> cos_accurate m -> pow_int_accurate m -> tan_accurate m ->
  fin f -> 0 <= B2R f <= 48000 -> (forall p, In p ps -> l_ok m p) -> chain_amp m ps 1 <= bpow radix2 90 ->
  exists K rho, 0 <= K /\ 0 <= rho < 1 /\ forall xs, exists ys,
    pipeline (b_prime kit kit_prime) (b_process kit (kit_process m)) (tone_block f :: map (chain_block m) ps) xs = Ok ys /\ length ys = length xs /\
    forall i y, nth_error ys i = Some y -> fin y /\
      Rabs (B2R y - tone (rad (B2R f)) (chain_w m ps (rad (B2R f)) (0, -1)) i) <= chain_err m ps (bpow radix2 (-9) + INR i * bpow radix2 (-48)) 1 + K * rho ^ i.
Proof.
  intros Sb Sz Sa HC HP HT F H OK HA.
  assert (B1 : bpow radix2 (-100) <= 1) by (change 1 with (bpow radix2 0); apply bpow_le; lia).
  destruct (chain_passes m ps HC HP HT OK (rad (B2R f)) (0, -1) 0 0 1 ltac:(lra) ltac:(lra) B1 HA) as (K & rho & K0 & R0 & T).
  exists K, rho. split; [exact K0|]. split; [exact R0|]. intro xs.
  rewrite pipeline_cons. unfold tone_block. rewrite user_cycle, tone_plays, map_length.
  set (n := length xs). destruct (sine_near m f n Sb Sz Sa F H) as (ts & s' & E & L & N). rewrite E. cbn [outputs bind].
  assert (EP : forall k, 0 <= bpow radix2 (-9) + INR k * bpow radix2 (-48)) by (intro k; apply Rplus_le_le_0_compat; [apply bpow_ge_0|apply Rmult_le_pos; [apply pos_INR|apply bpow_ge_0]]).
  destruct (T _ ts (EP _) N) as (ys & EY & LY & NY). exists ys. rewrite EY. split; [reflexivity|]. split; [congruence|].
  intros i y Hi. assert (Li : (i < n)%nat) by (rewrite <- L, <- LY; apply nth_error_Some; congruence).
  assert (N' : near_tone (rad (B2R f)) (0, -1) (bpow radix2 (-9) + INR i * bpow radix2 (-48)) 0 0 1 (firstn (S i) ts)).
  { destruct (sine_near m f (S i) Sb Sz Sa F H) as (ts2 & s2 & E2 & L2 & N2). cbn [Nat.pred] in N2. replace (firstn (S i) ts) with ts2; [exact N2|].
    assert (Q : outputs (run_res (cycle kit_prime (kit_process m)) (kit_generator (GSin (sin_new f))) (repeat [f0] n)) = Ok ts) by (rewrite tone_plays, repeat_length, E; reflexivity).
    apply (outputs_firstn _ (S i)) in Q. assert (RF : firstn (S i) (repeat [f0 : f32] n) = repeat [f0] (S i)) by (apply firstn_repeat'; lia).
    rewrite RF, tone_plays, repeat_length, E2 in Q. injection Q as ->. reflexivity. }
  destruct (T _ (firstn (S i) ts) (EP i) N') as (ys' & EY' & LY' & NY'). rewrite (pipeline_firstn _ _ (S i) _ _ _ EY) in EY'. injection EY' as <-.
  destruct (NY' i y) as (A & _ & D); [|exact (conj A D)].
  rewrite <- (firstn_skipn (S i) ys) in Hi. rewrite nth_error_app1 in Hi; [exact Hi|]. rewrite firstn_length. lia.
Qed.

(** ** the two kinds of sounds *)
Lemma sound_tone m f ps gi go g calls h :
  sin_bounded m -> sin_zero m -> sin_accurate m -> cos_accurate m -> pow_int_accurate m -> tan_accurate m ->
  fin f -> 0 <= B2R f <= 48000 -> (forall p, In p ps -> l_ok m p) -> chain_amp m ps 1 <= bpow radix2 90 ->
  NoDup (g :: added calls) -> map (get_mut kit h) (g :: added calls) = map Some (tone_block f :: map (chain_block m) ps) ->
  exists K rho, 0 <= K /\ 0 <= rho < 1 /\ forall xs, exists ys,
    outputs (run_res (ss_process kit kit_prime (kit_process m) (fold_left madd_step calls (ss_new gi go g))) h xs) = Ok (map (fun y => fmul y (to32 go)) ys) /\ length ys = length xs /\
    forall i y, nth_error ys i = Some y -> fin y /\
      Rabs (B2R y - tone (rad (B2R f)) (chain_w m ps (rad (B2R f)) (0, -1)) i) <= chain_err m ps (bpow radix2 (-9) + INR i * bpow radix2 (-48)) 1 + K * rho ^ i.
Proof.
  intros Sb Sz Sa HC HP HT F H OK HA ND HH. destruct (tone_pipeline m f ps Sb Sz Sa HC HP HT F H OK HA) as (K & rho & K0 & R0 & T).
  exists K, rho. split; [exact K0|]. split; [exact R0|]. intro xs. destruct (T (map (fun x => fmul x (to32 gi)) xs)) as (ys & E & L & B). exists ys.
  rewrite (sound_pipeline kit kit_prime (kit_process m) gi go g calls h _ _ xs ND HH), E. split; [reflexivity|]. split; [rewrite L; apply map_length|exact B].
Qed.
Lemma linear_pipeline U (up : U -> f32 -> U) (uo : U -> res (f32 * U)) gi go xs : forall bs, outputs (run_res (linear_spec U up uo gi go) bs xs) =
  do ys <- pipeline (b_prime U up) (b_process U uo) bs (map (fun x => fmul (fadd f0 x) gi) xs); Ok (map (fun y => fmul (fadd f0 y) go) ys).
Proof.
  intro bs. rewrite <- series_pipeline. revert bs. induction xs as [|x xs IH]; intro bs; [reflexivity|]. cbn [map]. rewrite !outputs_cons. unfold linear_spec at 1.
  destruct (series (b_prime U up) (b_process U uo) bs (fmul (fadd f0 x) gi)) as [[y bs']|]; [|reflexivity]. cbn [bind]. rewrite IH.
  destruct (outputs (run_res (series (b_prime U up) (b_process U uo)) bs' (map (fun x => fmul (fadd f0 x) gi) xs))); reflexivity.
Qed.
Lemma complex_tone m f ps gi go hs h :
  sin_bounded m -> sin_zero m -> sin_accurate m -> cos_accurate m -> pow_int_accurate m -> tan_accurate m ->
  fin f -> 0 <= B2R f <= 48000 -> (forall p, In p ps -> l_ok m p) -> chain_amp m ps 1 <= bpow radix2 90 ->
  NoDup hs -> map (get_mut kit h) hs = map Some (tone_block f :: map (chain_block m) ps) ->
  exists K rho ys0 s, 0 <= K /\ 0 <= rho < 1 /\
    run_res (cs_step kit kit_prime (kit_process m)) (cs_new kit h gi go) (build_chain hs) = Ok (ys0, (s, snd (cs_new kit h gi go))) /\ forall xs, exists ys,
    outputs (run_res (cs_process kit kit_prime (kit_process m) s) (snd (cs_new kit h gi go)) xs) = Ok (map (fun y => fmul y (to32 go)) ys) /\ length ys = length xs /\
    forall i y, nth_error ys i = Some y -> fin y /\
      Rabs (B2R y - tone (rad (B2R f)) (chain_w m ps (rad (B2R f)) (0, -1)) i) <= chain_err m ps (bpow radix2 (-9) + INR i * bpow radix2 (-48)) 1 + K * rho ^ i.
Proof.
  intros Sb Sz Sa HC HP HT F H OK HA ND HH. destruct (tone_pipeline m f ps Sb Sz Sa HC HP HT F H OK HA) as (K & rho & K0 & R0 & T).
  destruct (linear_sound kit kit_prime (kit_process m) hs _ h gi go ND HH) as (ys0 & s & E0 & _ & E).
  exists K, rho, ys0, s. split; [exact K0|]. split; [exact R0|]. split; [exact E0|]. intro xs. destruct (T (map (fun x => fmul (fadd f0 x) (to32 gi)) xs)) as (ys & EP & L & B).
  exists (map (fadd f0) ys). rewrite E, linear_pipeline, EP. cbn [bind]. split; [rewrite map_map; reflexivity|]. split; [rewrite map_length, L; apply map_length|].
  intros i y Hi. rewrite nth_error_map in Hi. destruct (nth_error ys i) as [z|] eqn:Ez; [|discriminate]. injection Hi as <-. destruct (B i z Ez) as [Fz Bz].
  destruct (zero_plus z Fz) as [FZ VZ]. split; [exact FZ|]. rewrite <- VZ in Bz. exact Bz.
Qed.
(** ** levels multiply, and the order does not matter *)
Lemma cn2_mul a b : cn2 (cmul a b) = cn2 a * cn2 b.
Proof. unfold cn2, cmul. cbn [fst snd]. ring. Qed.
Lemma chain_level m ps om : forall w, cn2 (chain_w m ps om w) = fold_left (fun a p => cn2 (l_H m p om) * a) ps (cn2 w).
Proof. induction ps as [|p r IH]; intro w; [reflexivity|]. cbn [chain_w fold_left]. rewrite IH, cn2_mul. reflexivity. Qed.
From Coq Require Import Permutation.
Lemma chain_order m ps qs om : Permutation ps qs -> forall w, chain_w m ps om w = chain_w m qs om w.
Proof.
  induction 1 as [|p l l' _ IH|p q l|l l' l'' _ IH1 _ IH2]; intro w; cbn [chain_w].
  - reflexivity.
  - apply IH.
  - f_equal. unfold cmul. cbn [fst snd]. f_equal; ring.
  - rewrite IH1. apply IH2.
Qed.
