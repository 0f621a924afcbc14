(** * C105: a tone through a chain of linear modifiers *)

From Coq Require Import ZArith List Bool Reals Lra Lia Permutation.
From Flocq Require Import Core.Core IEEE754.BinarySingleNaN.
From Verif Require Import Model.Floats Model.Utils Model.Generators Model.Modifiers Model.Filters Model.Sounds Model.Parts
  Spec.Libm Spec.Response Spec.Track Spec.SoundSpec Spec.Parts Spec.Chain
  Proof.FloatFacts Proof.LibmP Proof.UtilsP Proof.FormatsP Proof.GeneratorsP4 Proof.CornersP Proof.SoundsP Proof.SoundsP2 Proof.SoundsP3 Proof.ResponseP2 Proof.ChainP Proof.ChainP2 Proof.ChainP3 Proof.ChainP4.
Import ListNotations.
Local Open Scope R_scope.

(** ** C105 *)
(** a sound of blocks that do not share anything: each block has the whole output of the one before as its input *)
Theorem C105_sound_is_pipeline : forall (U : Type) (up : U -> f32 -> U) (uo : U -> res (f32 * U)) (gi go : f64) (g : handle) (calls : list madd)
    (h : heap U) (b : block U) (bs : list (block U)) (xs : list f32),
  NoDup (g :: added calls) -> map (get_mut U h) (g :: added calls) = map Some (b :: bs) ->
  outputs (run_res (ss_process U up uo (fold_left madd_step calls (ss_new gi go g))) h xs) =
  do ys <- pipeline (b_prime U up) (b_process U uo) (b :: bs) (map (fun x => fmul x (to32 gi)) xs); Ok (map (fun y => fmul y (to32 go)) ys).
Proof. exact sound_pipeline. Qed.
(** any signal that is a tone up to [eps] and an error that dies out is one again after the chain: the complex amplitudes
    of the parts multiply, [chain_err] is the error that stays *)
Theorem C105_chain_of_modifiers : forall (m : libm) (ps : list lpart), cos_accurate m -> pow_int_accurate m -> tan_accurate m -> (forall p, In p ps -> l_ok m p) ->
  forall (om : R) (w : C) (K rho X : R), 0 <= K -> 0 <= rho < 1 -> bpow radix2 (-100) <= X -> chain_amp m ps X <= bpow radix2 90 ->
  exists K' rho', 0 <= K' /\ 0 <= rho' < 1 /\ forall (eps : R) (xs : list f32), 0 <= eps -> near_tone om w eps K rho X xs ->
    exists ys, pipeline (b_prime kit kit_prime) (b_process kit (kit_process m)) (map (chain_block m) ps) xs = Ok ys /\ length ys = length xs /\
      near_tone om (chain_w m ps om w) (chain_err m ps eps X) K' rho' (chain_amp m ps X) ys.
Proof. exact chain_passes. Qed.
(** Sine::new(f) and the chain in a SimpleSound, from the first sample on, whatever is fed in *)
Theorem C105_simple_sound_tone : forall (m : libm) (f : f64) (ps : list lpart) (gi go : f64) (g : handle) (calls : list madd) (h : heap kit),
  sin_bounded m -> sin_zero m -> sin_accurate m -> cos_accurate m -> pow_int_accurate m -> tan_accurate m ->
  is_finite f = true -> 0 <= B2R f <= 48000 -> (forall p, In p ps -> l_ok m p) -> chain_amp m ps 1 <= bpow radix2 90 ->
  NoDup (g :: added calls) -> map (get_mut kit h) (g :: added calls) = map Some (tone_block f :: map (chain_block m) ps) ->
  exists K rho, 0 <= K /\ 0 <= rho < 1 /\ forall xs : list f32, exists ys,
    outputs (run_res (ss_process kit kit_prime (kit_process m) (fold_left madd_step calls (ss_new gi go g))) h xs) = Ok (map (fun y => fmul y (to32 go)) ys) /\
    length ys = length xs /\
    forall i y, nth_error ys i = Some y -> is_finite y = true /\
      Rabs (B2R y - tone (rad (B2R f)) (chain_w m ps (rad (B2R f)) (0, -1)) i) <= chain_err m ps (bpow radix2 (-9) + INR i * bpow radix2 (-48)) 1 + K * rho ^ i.
Proof. exact sound_tone. Qed.
(** the same in a ComplexSound whose blocks are connected in a row *)
Theorem C105_complex_sound_tone : forall (m : libm) (f : f64) (ps : list lpart) (gi go : f64) (hs : list handle) (h : heap kit),
  sin_bounded m -> sin_zero m -> sin_accurate m -> cos_accurate m -> pow_int_accurate m -> tan_accurate m ->
  is_finite f = true -> 0 <= B2R f <= 48000 -> (forall p, In p ps -> l_ok m p) -> chain_amp m ps 1 <= bpow radix2 90 ->
  NoDup hs -> map (get_mut kit h) hs = map Some (tone_block f :: map (chain_block m) ps) ->
  exists K rho ys0 s, 0 <= K /\ 0 <= rho < 1 /\
    run_res (cs_step kit kit_prime (kit_process m)) (cs_new kit h gi go) (build_chain hs) = Ok (ys0, (s, snd (cs_new kit h gi go))) /\
    forall xs : list f32, exists ys,
    outputs (run_res (cs_process kit kit_prime (kit_process m) s) (snd (cs_new kit h gi go)) xs) = Ok (map (fun y => fmul y (to32 go)) ys) /\
    length ys = length xs /\
    forall i y, nth_error ys i = Some y -> is_finite y = true /\
      Rabs (B2R y - tone (rad (B2R f)) (chain_w m ps (rad (B2R f)) (0, -1)) i) <= chain_err m ps (bpow radix2 (-9) + INR i * bpow radix2 (-48)) 1 + K * rho ^ i.
Proof. exact complex_tone. Qed.
(** the squared levels multiply; the order of the parts is immaterial to the tone *)
Theorem C105_levels_multiply : forall (m : libm) (ps : list lpart) (om : R) (w : C),
  cn2 (chain_w m ps om w) = fold_left (fun a p => cn2 (l_H m p om) * a) ps (cn2 w).
Proof. exact chain_level. Qed.
Theorem C105_order_immaterial : forall (m : libm) (ps qs : list lpart) (om : R), Permutation ps qs -> forall w : C, chain_w m ps om w = chain_w m qs om w.
Proof. exact chain_order. Qed.

(** 440 Hz at half gain, two samples late, with an echo of half gain after 6 samples, through a low pass of 12 kHz *)
Definition demo_chain : list lpart := [LGain (lit 1 (-1)); LDelay (mkDur 0 41667); LEcho (mkDur 0 125000) (lit 1 (-1)); LLow (of_Z 12000) f0].
Definition demo_heap : heap kit := map (fun b => mkCell kit 1 b) (tone_block (of_Z 440) :: map (chain_block ideal_libm) demo_chain).
Lemma half32 : B2R (lit 1 (-1) : f32) = / 2.
Proof.
  destruct (lit_ok (prec:=24) (emax:=128) 1 (-1)) as [_ ->].
  - rewrite Rmult_1_l. apply generic_format_bpow. vm_compute. discriminate.
  - rewrite Rmult_1_l, Rabs_pos_eq by apply bpow_ge_0. apply bpow_lt. lia.
  - change (bpow radix2 (-1)) with (/ 2). lra.
Qed.
Example C105_ex : (length (delay_new (mkDur 0 41667)) = 2 /\ length (e_delay (echo_new (mkDur 0 125000) (lit 1 (-1)))) = 6)%nat /\
  (forall p, In p demo_chain -> l_ok ideal_libm p) /\ chain_amp ideal_libm demo_chain 1 <= bpow radix2 90 /\
  NoDup (0%nat :: added [AddAll [1; 2]; AddOne 3; AddOne 4]%nat) /\
  map (get_mut kit demo_heap) (0%nat :: added [AddAll [1; 2]; AddOne 3; AddOne 4]%nat) = map Some (tone_block (of_Z 440) :: map (chain_block ideal_libm) demo_chain).
Proof.
  assert (G : to32 (lit 1 (-1) : f64) = lit 1 (-1)) by (apply B2SF_inj; vm_compute; reflexivity).
  assert (FC : lp_fc (lp_new ideal_libm (of_Z 12000) f0) = of_Z 12000) by (apply B2SF_inj; vm_compute; reflexivity).
  split; [split; vm_compute; reflexivity|]. split.
  - intros p [<-|[<-|[<-|[<-|[]]]]]; cbn [l_ok].
    + split; [vm_compute; reflexivity|]. rewrite half32, Rabs_pos_eq by lra. apply Rle_trans with (bpow radix2 0); [change (bpow radix2 0) with 1; lra|apply bpow_le; lia].
    + exact I.
    + split; [intro E; apply (f_equal (@length f32)) in E; vm_compute in E; discriminate|]. rewrite G. split; [vm_compute; reflexivity|]. rewrite half32, Rabs_pos_eq; lra.
    + rewrite FC. vm_compute. reflexivity.
  - split.
    + apply Rle_trans with (bpow radix2 20); [|apply bpow_le; lia]. change (bpow radix2 20) with 1048576.
      unfold demo_chain. cbn [chain_amp l_gain l_drift]. rewrite G, half32, FC. destruct (of_Z64 12000 ltac:(lia)) as [_ ->].
      rewrite (Rabs_pos_eq (/ 2)) by lra. unfold lp_drift, rad. cbv zeta. change (bpow radix2 (-24)) with (/ 16777216). change (bpow radix2 (-21)) with (/ 2097152).
      pose proof PI_bounds. set (u := 2 * PI * 12000 / 48000). assert (U : 3 / 2 <= u <= 2) by (unfold u; lra). clearbody u.
      assert (V : / u <= 2 / 3) by (replace (2 / 3) with (/ (3 / 2)) by lra; apply Rinv_le; lra). assert (V0 : 0 < / u) by (apply Rinv_0_lt_compat; lra).
      unfold Rdiv. rewrite <- pow_inv by lra. set (v := / u) in *. clearbody v. assert (V3 : 0 <= v ^ 3 <= 1) by (cbn [pow]; nra).
      assert (P1 : 0 <= 6 * v + 3 <= 7) by lra. assert (P2 : 0 <= (7 + 6 * u + 2 * (u * u)) * (12 * v + 6) * v ^ 3 <= 27 * 14).
      { assert (0 <= 7 + 6 * u + 2 * (u * u) <= 27) by nra. assert (0 <= 12 * v + 6 <= 14) by lra. set (a := 7 + _ + _) in *. set (b := 12 * v + 6) in *. set (c := v ^ 3) in *. clearbody a b c.
        assert (0 <= a * b <= 27 * 14) by nra. nra. }
      set (q := (7 + _ + _) * _ * _) in *. clearbody q. set (p := 6 * v + 3) in *. clearbody p.
      assert (0 <= p * (1 + q) <= 7 * 379) by nra.
      replace (/ 2097152 * p * (1 + q)) with (/ 2097152 * (p * (1 + q))) by ring. set (z := p * (1 + q)) in *. clearbody z. nra.
    + split; [|reflexivity]. cbn. repeat constructor; cbn; lia.
Qed.
