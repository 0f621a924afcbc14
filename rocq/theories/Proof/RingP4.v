(** * A feedback loop in a ComplexSound: what comes out *)
From Coq Require Import ZArith List Bool Arith Reals Lra Lia Psatz.
From Flocq Require Import Core.Core IEEE754.BinarySingleNaN.
From Verif Require Import Model.Floats Model.Utils Model.Generators Model.Modifiers Model.Filters Model.Sounds Model.Parts
  Spec.SoundSpec Spec.Libm Spec.Response Spec.Track Spec.Parts Spec.Flow Spec.Chain Spec.Convolve Spec.Branches Spec.Feedback Spec.Ring
  Proof.FloatFacts Proof.SampleFormatP Proof.SoundsP Proof.SoundsP2 Proof.SoundsP3 Proof.PartsP Proof.FlowP Proof.FlowP2 Proof.ChainP2 Proof.ChainP3 Proof.ChainP4 Proof.ConvolveP Proof.ConvolveP2 Proof.ConvolveP3
  Proof.RackP Proof.BranchP2 Proof.FeedbackP3 Proof.RingP Proof.RingP2 Proof.RingP3 Proof.TapsP3.
Import ListNotations.
Local Open Scope R_scope.

Lemma chain_amp_app m ps qs X : chain_amp m (ps ++ qs) X = chain_amp m qs (chain_amp m ps X).
Proof. revert X. induction ps as [|p r IH]; intro X; [reflexivity|]. cbn [app chain_amp]. apply IH. Qed.
Lemma chain_amp_first m ps n X : (forall p, In p ps -> l_ok m p) -> 0 <= X -> chain_amp m (firstn n ps) X <= chain_amp m ps X.
Proof.
  intros OK HX. rewrite <- (firstn_skipn n ps) at 2. rewrite chain_amp_app. apply amp_grows.
  - intros p Hp. apply OK. rewrite <- (firstn_skipn n ps). apply in_or_app. right. exact Hp.
  - apply Rle_trans with X; [exact HX|]. apply amp_grows; [|exact HX]. intros p Hp. apply OK. rewrite <- (firstn_skipn n ps). apply in_or_app. left. exact Hp.
Qed.
Lemma firstn_In {A} (l : list A) n x : In x (firstn n l) -> In x l.
Proof. intro H. rewrite <- (firstn_skipn n l). apply in_or_app. left. exact H. Qed.

Lemma ring_one (h x : nat -> R) : (exists u, ring_solves h x u) /\ forall u v, ring_solves h x u -> ring_solves h x v -> forall n, u n = v n.
Proof. split; [exists (ring_sol h x); apply ring_sol_solves|exact (ring_solves_unique h x)]. Qed.

Section Sound.
Variables (m : libm) (ps : list lpart) (L : list nat) (t : nat) (gi go : f64) (h : heap kit) (pre : list cop) (e : cop) (s : complex) (hp : heap kit).
Let ops := pre ++ [e].
Let parts := path_parts ps L.
Hypothesis RS : reaches_state kit kit_prime (kit_process m) h gi go ops s.
Hypothesis He : edits_order e = true.
Hypothesis RG : ring (blocks ops) L t.
Hypothesis CO : forall a b, connected ops a b <-> ring_link L t a b.
Hypothesis Pa : cs_paused s = false. Hypothesis Mu : cs_muted s = false.
Hypothesis ND : NoDup (node_handles h ops).
Hypothesis GM : map (get_mut kit hp) (node_handles h ops) = map Some (Gainer kit (gain_block (to32 gi)) :: Gainer kit (gain_block (to32 go)) :: map (chain_block m) ps).
Hypothesis HC : cos_accurate m. Hypothesis HP : pow_int_accurate m. Hypothesis HT : tan_accurate m.
Hypothesis OK : forall p, In p ps -> l_ok m p.
Variables (U X : R).
Hypothesis U0 : bpow radix2 (-100) <= U.
Hypothesis UA : chain_amp m parts U <= bpow radix2 90.
Hypothesis X0 : 0 <= X.
Hypothesis ROOM : (1 + bpow radix2 (-24)) * (X + ring_gain m parts * U + chain_err m parts 0 U) <= U.

Lemma parts_ok : forall p, In p parts -> l_ok m p.
Proof.
  intros p Hp. unfold parts, path_parts in Hp. apply in_map_iff in Hp. destruct Hp as (x & <- & Hx). apply OK. apply nth_In.
  pose proof RS as (ys0 & h0 & R0). destruct (proj1 (history_ginv kit kit_prime (kit_process m) _ _ _ _ _ _ _ R0)) as (_ & _ & LN & _).
  rewrite (nodes_of kit kit_prime (kit_process m) _ _ _ _ _ _ _ R0) in LN. pose proof (f_equal (@length _) GM) as Q. rewrite !map_length in Q. cbn [length] in Q. rewrite map_length in Q.
  apply (proj1 (proj2 RG)) in Hx. lia.
Qed.
Lemma ring_tracks xs ys hp' u : (forall x, In x xs -> fin (fmul (fadd f0 x) (to32 gi)) /\ Rabs (B2R (fmul (fadd f0 x) (to32 gi))) <= X) ->
  run_res (cs_process kit kit_prime (kit_process m) s) hp xs = Ok (ys, hp') ->
  ring_solves (chain_h m parts) (fun k => B2R (nth k (map (fun x => fmul (fadd f0 x) (to32 gi)) xs) f0)) u ->
  exists zs, ys = map (fun z => fmul z (to32 go)) zs /\ length zs = length xs /\
    near_signal (conv (chain_h m (firstn (S t) parts)) u) (chain_err m (firstn (S t) parts) (ring_noise m parts U / (1 - ring_gain m parts)) U) (chain_amp m (firstn (S t) parts) U) zs.
Proof.
  intros HX R HU. destruct xs as [|x0 xr].
  { cbn in R. injection R as <- <-. exists []. split; [reflexivity|]. split; [reflexivity|]. intros j x E. destruct j; discriminate. }
  set (xs := x0 :: xr) in *. pose proof parts_ok as OKP. assert (UP : 0 < U) by (pose proof (bpow_gt_0 radix2 (-100)); lra).
  destruct (ring_flow m ps L t h gi go pre e s hp xs ys hp' RS He RG CO Pa Mu ND GM ltac:(discriminate) R) as (_ & us & vs & ts & LU & RUN & RUT & SUM & EY). fold parts in RUN, RUT.
  set (zs := map (fun x => fmul (fadd f0 x) (to32 gi)) xs) in *.
  assert (HZ : forall z, In z zs -> fin z /\ Rabs (B2R z) <= X) by (intros z Hz; apply in_map_iff in Hz; destruct Hz as (x & <- & Hx); apply HX, Hx).
  pose proof (ring_gain_lt m parts U X OKP U0 ROOM X0) as GL.
  pose proof (ring_near m parts U X zs us vs HC HP HT OKP U0 UA ROOM HZ LU RUN SUM u X0 HU) as N.
  assert (E0 : 0 <= ring_noise m parts U / (1 - ring_gain m parts)).
  { apply Rmult_le_pos; [|left; apply Rinv_0_lt_compat; lra]. unfold ring_noise. apply Rplus_le_le_0_compat; [apply chain_err_pos; [exact OKP|lra|lra]|apply Rmult_le_pos; [apply bpow_ge_0|lra]]. }
  destruct (chain_convolves m (firstn (S t) parts) HC HP HT (fun p Hp => OKP p (firstn_In _ _ _ Hp)) u _ U us E0 U0
    (Rle_trans _ _ _ (chain_amp_first m parts (S t) U OKP ltac:(lra)) UA) N) as (ts' & RUT' & LT & NT).
  rewrite RUT in RUT'. injection RUT' as <-. exists (map (fadd f0) ts). split; [rewrite EY, map_map; reflexivity|]. split.
  - rewrite map_length, LT, LU. unfold zs. apply map_length.
  - apply near_signal_zero, NT.
Qed.
End Sound.

Lemma ring_sounds m ps L t gi go h pre e s hp om w K rho X U : let ops := pre ++ [e] in let parts := path_parts ps L in let fs := firstn (S t) parts in
  let g := LGain (to32 gi) in let X1 := (1 + l_gain m g + l_drift m g) * X in
  cos_accurate m -> pow_int_accurate m -> tan_accurate m -> (forall p, In p ps -> l_ok m p) -> l_ok m g ->
  0 <= K -> 0 <= rho < 1 -> bpow radix2 (-100) <= X -> X1 <= bpow radix2 90 -> bpow radix2 (-100) <= U -> chain_amp m parts U <= bpow radix2 90 ->
  (1 + bpow radix2 (-24)) * (X1 + ring_gain m parts * U + chain_err m parts 0 U) <= U ->
  reaches_state kit kit_prime (kit_process m) h gi go ops s -> edits_order e = true ->
  ring (blocks ops) L t -> (forall a b, connected ops a b <-> ring_link L t a b) ->
  cs_paused s = false -> cs_muted s = false -> NoDup (node_handles h ops) ->
  map (get_mut kit hp) (node_handles h ops) = map Some (Gainer kit (gain_block (to32 gi)) :: Gainer kit (gain_block (to32 go)) :: map (chain_block m) ps) ->
  exists K' rho', 0 <= K' /\ 0 <= rho' < 1 /\ forall eps xs ys hp', 0 <= eps -> near_tone om w eps K rho X xs ->
    run_res (cs_process kit kit_prime (kit_process m) s) hp xs = Ok (ys, hp') ->
    exists zs, ys = map (fun z => fmul z (to32 go)) zs /\ length zs = length xs /\
      near_tone om (chain_w m fs om (ring_w m parts om (cmul (l_H m g om) w)))
        (chain_err m fs ((l_drift m g * X + l_gain m g * eps + ring_noise m parts U) / (1 - ring_gain m parts)) U) K' rho' (chain_amp m fs U) zs.
Proof.
  intros ops parts fs g X1 HC HP HT OK OG HK Hr HX HX1 U0 UA ROOM RS He RG CO Pa Mu ND GM.
  assert (UP : 0 < U) by (pose proof (bpow_gt_0 radix2 (-100)); lra). assert (XP : 0 < X) by (pose proof (bpow_gt_0 radix2 (-100)); lra). destruct (part_grows m g OG) as [Gg Gd]. assert (XX : X <= X1) by (unfold X1; clearbody X1; nra). assert (X0 : 0 <= X1) by lra.
  pose proof (parts_ok m ps L t gi go h pre e s hp RS RG GM OK) as OKP. fold parts in OKP.
  pose proof (ring_gain_lt m parts U X1 OKP U0 ROOM X0) as GL.
  destruct (gain_passes m om w K rho X HK Hr ltac:(lra) (to32 gi) OG) as (K1 & r1 & K1p & R1 & T1). fold g in T1. fold X1 in T1.
  destruct (ring_tone m parts U X1 om K1 r1 (cmul (l_H m g om) w) HC HP HT OKP U0 UA X0 ROOM K1p R1) as (K2 & r2 & K2p & R2 & T2).
  destruct (chain_passes m fs HC HP HT (fun p Hp => OKP p (firstn_In _ _ _ Hp)) om (ring_w m parts om (cmul (l_H m g om) w)) K2 r2 U K2p R2 U0
    (Rle_trans _ _ _ (chain_amp_first m parts (S t) U OKP ltac:(lra)) UA)) as (K3 & r3 & K3p & R3 & T3).
  exists K3, r3. split; [exact K3p|]. split; [exact R3|]. intros eps xs ys hp' Hp N R. destruct xs as [|x0 xr].
  { cbn in R. injection R as <- <-. exists []. split; [reflexivity|]. split; [reflexivity|]. intros j x E. destruct j; discriminate. }
  set (xs := x0 :: xr) in *.
  destruct (ring_flow m ps L t h gi go pre e s hp xs ys hp' RS He RG CO Pa Mu ND GM ltac:(discriminate) R) as (_ & us & vs & ts & LU & RUN & RUT & SUM & EY). fold parts in RUN, RUT. fold fs in RUT.
  destruct (T1 eps (map (fadd f0) xs) Hp (near_zero _ _ _ _ _ _ _ N)) as (zs & p' & E1 & L1 & N1). rewrite map_length in L1.
  assert (EU : zs = map (fun x => fmul (fadd f0 x) (to32 gi)) xs).
  { pose proof (wrap_run gain_process MGain m (fun s x => eq_refl) (map (fadd f0) xs) (to32 gi)) as Q. cbn [l_part g] in E1. rewrite E1 in Q. rewrite RackP.gain_run, map_map in Q. congruence. }
  rewrite <- EU in LU, SUM.
  set (eps1 := l_drift m g * X + l_gain m g * eps) in *. assert (E0 : 0 <= eps1) by (unfold eps1; apply Rplus_le_le_0_compat; apply Rmult_le_pos; lra).
  pose proof (T2 eps1 zs us vs E0 N1 LU RUN SUM) as N2.
  assert (E2 : 0 <= (eps1 + ring_noise m parts U) / (1 - ring_gain m parts)).
  { apply Rmult_le_pos; [|left; apply Rinv_0_lt_compat; lra]. apply Rplus_le_le_0_compat; [exact E0|]. unfold ring_noise. apply Rplus_le_le_0_compat; [apply chain_err_pos; [exact OKP|lra|lra]|apply Rmult_le_pos; [apply bpow_ge_0|lra]]. }
  destruct (T3 _ us E2 N2) as (ts' & RUT' & LT & N3). rewrite RUT in RUT'. injection RUT' as <-.
  exists (map (fadd f0) ts). split; [rewrite EY, map_map; reflexivity|]. split; [rewrite map_length, LT, LU, L1; reflexivity|apply near_zero, N3].
Qed.

(** a delay at gain [a] in the loop: peaks at the multiples of one over the delay and one sample *)
Lemma ring_delay m d a om w : Rabs (B2R a) < 1 ->
  cn2 (ring_w m [LDelay d; LGain a] om w) * (1 - 2 * B2R a * cos (om * INR (S (length (delay_new d)))) + B2R a * B2R a) = cn2 w.
Proof.
  intro A. unfold ring_w. cbn [chain_w l_H]. rewrite S_INR. set (D := INR (length (delay_new d))).
  replace (om * (D + 1)) with (om + om * D) by ring. rewrite cos_plus.
  unfold zi, cdiv, cinv, csub, cadd, cre, cmul, cn2. cbn [fst snd]. unfold Rdiv.
  pose proof (sin2_cos2 om) as P. pose proof (sin2_cos2 (om * D)) as Q. unfold Rsqr in P, Q. set (c := cos om) in *. set (z := sin om) in *. set (c' := cos (om * D)) in *. set (z' := sin (om * D)) in *.
  set (b := B2R a) in *. destruct w as [x y]. cbn [fst snd]. apply Rabs_def2 in A.
  assert (NZ : 1 - 2 * b * (c * c' - z * z') + b * b <> 0).
  { assert (C : -1 <= c * c' - z * z' <= 1) by (unfold c, z, c', z'; rewrite <- cos_plus; apply COS_bound). set (v := c * c' - z * z') in *. clearbody v. destruct (Rle_lt_dec 0 b) as [B|B].
    - assert (b * v <= b * 1) by (apply Rmult_le_compat_l; lra). assert (0 < (1 - b) * (1 - b)) by (apply Rmult_lt_0_compat; lra). lra.
    - assert (- b * - v <= - b * 1) by (apply Rmult_le_compat_l; lra). assert (0 < (1 + b) * (1 + b)) by (apply Rmult_lt_0_compat; lra). lra. }
  match goal with |- context [/ ?q] => assert (DE : q = 1 - 2 * b * (c * c' - z * z') + b * b) end.
  { transitivity (1 - 2 * b * (c * c' - z * z') + b * b * (z * z + c * c) * (z' * z' + c' * c')); [ring|rewrite P, Q; ring]. }
  rewrite DE. match type of DE with ?q = ?r => set (q0 := q) in *; set (r0 := r) in * end.
  match goal with |- ?l * _ = ?r => transitivity (r * (q0 * / r0 * / r0) * r0); [unfold q0; ring|] end. rewrite DE. field. exact NZ.
Qed.

(** nothing but passes in the loop: the input piles up *)
Lemma pass_pipeline m ps xs : (forall p, In p ps -> p = LPass) -> pipeline (b_prime kit kit_prime) (b_process kit (kit_process m)) (map (chain_block m) ps) xs = Ok (match ps with [] => xs | _ => map (fadd f0) xs end).
Proof.
  revert xs. induction ps as [|p r IH]; intros xs H; [reflexivity|]. cbn [map]. rewrite pipeline_cons, (H p (or_introl eq_refl)). unfold chain_block at 1. rewrite mod_cycles, map_map. cbn [l_part].
  rewrite pass_run. cbn [bind]. rewrite IH by (intros q Hq; apply H; right; exact Hq). destruct r as [|q r]; [reflexivity|]. f_equal. rewrite map_map. apply map_ext. intro x. exact (sum_in_same [x]).
Qed.
Lemma fadd_int32 a b : (0 < a -> 0 < b -> a + b <= 2 ^ 24 -> fadd (of_Z a : f32) (of_Z b) = of_Z (a + b))%Z.
Proof.
  intros A B S. destruct (of_Z32 a ltac:(lia)) as [Fa Va]. destruct (of_Z32 b ltac:(lia)) as [Fb Vb]. destruct (of_Z32 (a + b) ltac:(lia)) as [Fc Vc].
  assert (F : generic_format radix2 (SpecFloat.fexp 24 128) (IZR (a + b))) by (apply fmt_int; lia). assert (P : 0 < IZR (a + b)) by (apply IZR_lt; lia).
  destruct (fadd_le (of_Z a : f32) (of_Z b) (IZR (a + b)) Fa Fb F) as (F1 & V1 & _).
  { pose proof (int_lt (a + b) ltac:(lia)) as Q. rewrite Rabs_pos_eq in Q by lra. exact Q. }
  { rewrite Va, Vb, <- plus_IZR, Rabs_pos_eq by lra. lra. }
  rewrite Va, Vb, <- plus_IZR, (rnd_fmt (prec := 24) (emax := 128)) in V1 by exact F.
  apply (fin_eq (prec := 24) (emax := 128)); [exact F1|exact Fc|congruence|rewrite V1; lra].
Qed.
Lemma one32 : to32 (of_Z 1 : f64) = of_Z 1. Proof. apply B2SF_inj. vm_compute. reflexivity. Qed.
Lemma zero_int32 a : (0 < a <= 2 ^ 24)%Z -> fadd f0 (of_Z a : f32) = of_Z a.
Proof. intro A. apply plus_zero_same. intro E. destruct (of_Z32 a ltac:(lia)) as [_ V]. rewrite E in V. cbn in V. assert (IZR a = 0) by congruence. apply eq_IZR in H. lia. Qed.
Lemma times_one a : (0 < a <= 2 ^ 24)%Z -> fmul (of_Z a : f32) (of_Z 1) = of_Z a.
Proof.
  intro A. destruct (of_Z32 a ltac:(lia)) as [Fa Va]. destruct (of_Z32 1 ltac:(lia)) as [F1 V1].
  assert (F : generic_format radix2 (SpecFloat.fexp 24 128) (IZR a)) by (apply fmt_int; lia). assert (P : 0 < IZR a) by (apply IZR_lt; lia).
  destruct (fmul_le (of_Z a : f32) (of_Z 1) (IZR a) Fa F1 F) as (F2 & V2 & _).
  { pose proof (int_lt a ltac:(lia)) as Q. rewrite Rabs_pos_eq in Q by lra. exact Q. }
  { rewrite Va, V1, Rmult_1_r, Rabs_pos_eq by lra. lra. }
  rewrite Va, V1, Rmult_1_r, (rnd_fmt (prec := 24) (emax := 128)) in V2 by exact F.
  apply (fin_eq (prec := 24) (emax := 128)); [exact F2|exact Fa|congruence|rewrite V2; lra].
Qed.
Lemma map_repeat {A B} (f : A -> B) x n : map f (repeat x n) = repeat (f x) n.
Proof. induction n as [|n IH]; [reflexivity|]. cbn. rewrite IH. reflexivity. Qed.
Lemma nth_repeat_lt {A} (x d : A) n j : (j < n)%nat -> nth j (repeat x n) d = x.
Proof. intro H. rewrite (nth_indep _ d x) by (rewrite repeat_length; exact H). apply nth_repeat. Qed.
Lemma ring_piles m ps L t h pre e s hp n ys hp' : let ops := pre ++ [e] in
  reaches_state kit kit_prime (kit_process m) h (of_Z 1) (of_Z 1) ops s -> edits_order e = true ->
  ring (blocks ops) L t -> (forall a b, connected ops a b <-> ring_link L t a b) ->
  cs_paused s = false -> cs_muted s = false -> NoDup (node_handles h ops) ->
  map (get_mut kit hp) (node_handles h ops) = map Some (Gainer kit (gain_block (to32 (of_Z 1))) :: Gainer kit (gain_block (to32 (of_Z 1))) :: map (chain_block m) ps) ->
  (forall p, In p ps -> p = LPass) -> run_res (cs_process kit kit_prime (kit_process m) s) hp (repeat (of_Z 1) n) = Ok (ys, hp') ->
  forall k, (k < n)%nat -> (Z.of_nat k < 2 ^ 24)%Z -> nth_error ys k = Some (of_Z (Z.of_nat k + 1)).
Proof.
  intros ops RS He RG CO Pa Mu ND GM AP R k Hk Zk. assert (NX : repeat (of_Z 1 : f32) n <> []) by (destruct n; [lia|discriminate]).
  destruct (ring_flow m ps L t h _ _ pre e s hp _ ys hp' RS He RG CO Pa Mu ND GM NX R) as (IX & us & vs & ts & LU & RUN & RUT & SUM & EY).
  assert (PA : forall p, In p (path_parts ps L) -> p = LPass).
  { intros p Hp. unfold path_parts in Hp. apply in_map_iff in Hp. destruct Hp as (x & <- & Hx). apply AP. exact (nth_error_In _ _ (IX x Hx)). }
  assert (LP : (0 < length (path_parts ps L))%nat) by (unfold path_parts; rewrite map_length; destruct RG as (_ & _ & Q & _); lia).
  rewrite pass_pipeline in RUN by exact PA. rewrite pass_pipeline in RUT by (intros p Hp; apply PA; exact (firstn_In _ _ _ Hp)).
  destruct (path_parts ps L) as [|p0 pr]; [cbn in LP; lia|]. cbn [firstn] in RUT. injection RUN as <-. injection RUT as <-.
  rewrite map_length, repeat_length in LU, SUM. rewrite one32, map_repeat, (zero_int32 1), (times_one 1) in SUM by lia.
  assert (US : forall j, (j < n)%nat -> (Z.of_nat j < 2 ^ 24)%Z -> nth j us f0 = of_Z (Z.of_nat j + 1)).
  { induction j as [|j IH]; intros Hj Zj; rewrite (SUM _ Hj).
    - rewrite nth_repeat_lt by exact Hj. apply zero_int32. lia.
    - rewrite nth_repeat_lt by exact Hj. rewrite (nth_indep _ f0 (fadd f0 f0)) by (rewrite map_length; lia). rewrite map_nth, IH by lia. rewrite !zero_int32 by lia. rewrite fadd_int32 by lia. f_equal. lia. }
  rewrite EY, one32, map_map, nth_error_map, (nth_error_nth' us f0) by lia. cbn [option_map]. rewrite US, !zero_int32, times_one by (assumption || lia). reflexivity.
Qed.
