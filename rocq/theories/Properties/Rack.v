(** * C107: parts side by side in a ComplexSound *)
From Coq Require Import ZArith List Bool Arith Reals Lra Lia Permutation.
From Flocq Require Import Core.Core IEEE754.BinarySingleNaN.
From Verif Require Import Model.Floats Model.Utils Model.Generators Model.Modifiers Model.Filters Model.Sounds Model.Parts
  Spec.SoundSpec Spec.Libm Spec.Response Spec.Parts Spec.Flow Spec.Chain Spec.Rack
  Proof.FloatFacts Proof.UtilsP Proof.LibmP Proof.FormatsP Proof.SoundsP2 Proof.SoundsP3 Proof.RackP Proof.RackP2.
Import ListNotations.
Local Open Scope R_scope.

(** ** C107 *)
(** any history of edits that leaves every added block connected between input and output gain and nothing else: a signal that
    is a tone up to [eps] and an error that dies out comes out as a tone whose complex amplitude is the sum of those of the
    parts, up to the parts' errors, the rounding of the additions, and an error that dies out *)
Theorem C107_rack_any_history : forall (m : libm) (ps : list lpart) (gi go : f64) (h : heap kit) (pre : list cop) (e : cop) (s : complex) (hp : heap kit)
    (om : R) (w : C) (K rho X : R), let ops := pre ++ [e] in let g := LGain (to32 gi) in let X1 := (1 + l_gain m g + l_drift m g) * X in
  cos_accurate m -> pow_int_accurate m -> tan_accurate m -> (forall p, In p ps -> l_ok m p) -> l_ok m g ->
  0 <= K -> 0 <= rho < 1 -> bpow radix2 (-100) <= X -> X1 <= bpow radix2 90 -> adding (length ps) * rack_amp m ps X1 <= bpow radix2 120 ->
  reaches_state kit kit_prime (kit_process m) h gi go ops s -> edits_order e = true ->
  (forall a b, connected ops a b <-> (a = 0 /\ 2 <= b < blocks ops) \/ (b = 1 /\ 2 <= a < blocks ops))%nat ->
  cs_paused s = false -> cs_muted s = false -> NoDup (node_handles h ops) ->
  map (get_mut kit hp) (node_handles h ops) = map Some (Gainer kit (gain_block (to32 gi)) :: Gainer kit (gain_block (to32 go)) :: map (chain_block m) ps) ->
  exists K' rho', 0 <= K' /\ 0 <= rho' < 1 /\ forall (eps : R) (xs ys : list f32) (hp' : heap kit), 0 <= eps -> near_tone om w eps K rho X xs ->
    run_res (cs_process kit kit_prime (kit_process m) s) hp xs = Ok (ys, hp') ->
    exists zs, ys = map (fun z => fmul z (to32 go)) zs /\ length zs = length xs /\
      near_tone om (rack_w m ps om (cmul (l_H m g om) w))
        (rack_err m ps (l_drift m g * X + l_gain m g * eps) X1 + (adding (length ps) - 1) * rack_amp m ps X1) K' rho' (adding (length ps) * rack_amp m ps X1) zs.
Proof. exact rack_passes. Qed.
(** the same for a rack built from scratch, which moreover never panics *)
Theorem C107_rack : forall (m : libm) (ps : list lpart) (hs : list handle) (h : heap kit) (gi go : f64) (om : R) (w : C) (K rho X : R),
  let g := LGain (to32 gi) in let X1 := (1 + l_gain m g + l_drift m g) * X in
  sin_bounded m -> cos_accurate m -> pow_int_accurate m -> tan_accurate m -> (forall p, In p ps -> l_ok m p) -> l_ok m g ->
  0 <= K -> 0 <= rho < 1 -> bpow radix2 (-100) <= X -> X1 <= bpow radix2 90 -> adding (length ps) * rack_amp m ps X1 <= bpow radix2 120 ->
  ps <> [] -> NoDup hs -> map (get_mut kit h) hs = map Some (map (chain_block m) ps) -> made_heap h ->
  exists ys0 s K' rho', run_res (cs_step kit kit_prime (kit_process m)) (cs_new kit h gi go) (build_rack hs) = Ok (ys0, (s, snd (cs_new kit h gi go))) /\
    0 <= K' /\ 0 <= rho' < 1 /\ forall (eps : R) (xs : list f32), 0 <= eps -> near_tone om w eps K rho X xs ->
    exists zs, outputs (run_res (cs_process kit kit_prime (kit_process m) s) (snd (cs_new kit h gi go)) xs) = Ok (map (fun z => fmul z (to32 go)) zs) /\ length zs = length xs /\
      near_tone om (rack_w m ps om (cmul (l_H m g om) w))
        (rack_err m ps (l_drift m g * X + l_gain m g * eps) X1 + (adding (length ps) - 1) * rack_amp m ps X1) K' rho' (adding (length ps) * rack_amp m ps X1) zs.
Proof. exact rack_heard. Qed.
(** the additions cost next to nothing *)
Theorem C107_adding_is_cheap : forall n : nat, INR n <= bpow radix2 24 -> adding n - 1 <= INR n * bpow radix2 (-23).
Proof. exact adding_small. Qed.
(** sines side by side: the sum of the sines, from the first sample on, whatever is fed in *)
Theorem C107_chord : forall (m : libm) (fs : list f64) (hs : list handle) (h : heap kit) (gi go : f64),
  sin_bounded m -> sin_zero m -> sin_accurate m -> fs <> [] -> INR (length fs) <= bpow radix2 24 ->
  (forall f, In f fs -> is_finite f = true /\ 0 <= B2R f <= 48000) ->
  NoDup hs -> map (get_mut kit h) hs = map Some (map tone_block fs) -> made_heap h ->
  exists ys0 s, run_res (cs_step kit kit_prime (kit_process m)) (cs_new kit h gi go) (build_rack hs) = Ok (ys0, (s, snd (cs_new kit h gi go))) /\
    forall xs : list f32, exists zs,
      outputs (run_res (cs_process kit kit_prime (kit_process m) s) (snd (cs_new kit h gi go)) xs) = Ok (map (fun z => fmul z (to32 go)) zs) /\ length zs = length xs /\
      forall i z, nth_error zs i = Some z -> is_finite z = true /\
        Rabs (B2R z - rsum (map (fun f => sin (2 * PI * B2R f * INR i / 48000)) fs)) <=
          INR (length fs) * (bpow radix2 (-9) + INR i * bpow radix2 (-48)) + INR (length fs) * INR (length fs) * bpow radix2 (-23).
Proof. exact chord_heard. Qed.
(** a signal beside its own delay: a comb; the tones that meet the delay half a period late vanish *)
Theorem C107_dry_wet_comb : forall (m : libm) (d : duration) (om : R) (w : C),
  cn2 (rack_w m [LPass; LDelay d] om w) = (2 + 2 * cos (om * INR (length (delay_new d)))) * cn2 w.
Proof. exact dry_wet. Qed.

(** three sines; the signal beside its own delay *)
Definition chord_heap : heap kit := map (fun f => mkCell kit 1 (tone_block (of_Z f))) [440; 550; 660]%Z.
Example C107_ex_chord : (forall f, In f (map (fun z => of_Z z) [440; 550; 660]%Z) -> is_finite f = true /\ 0 <= B2R (f : f64) <= 48000) /\
  NoDup [2; 0; 1]%nat /\ map (get_mut kit chord_heap) [2; 0; 1]%nat = map Some (map tone_block (map (fun z => of_Z z) [660; 440; 550]%Z)) /\ made_heap chord_heap.
Proof.
  split; [|split; [|split]].
  - intros f Hf. cbn [In map] in Hf. destruct Hf as [<-|[<-|[<-|[]]]];
      [destruct (of_Z64 440 ltac:(lia)) as [F ->]|destruct (of_Z64 550 ltac:(lia)) as [F ->]|destruct (of_Z64 660 ltac:(lia)) as [F ->]]; (split; [exact F|lra]).
  - repeat constructor; cbn; lia.
  - reflexivity.
  - assert (Q : forall z : Z, (0 <= z <= 48000)%Z -> exists b, c_block kit (mkCell kit 1 (tone_block (of_Z z))) = User kit b /\ made b).
    { intros z Hz. eexists. split; [reflexivity|]. exists (GSin (sin_new (of_Z z))), MPass, IGenerator. split; [reflexivity|]. split; [|exact I]. exists (of_Z z). split; [reflexivity|].
      destruct (of_Z64 z ltac:(lia)) as [F ->]. split; [exact F|]. split; apply IZR_le; lia. }
    intros n c E. apply nth_error_In in E. apply in_map_iff in E. destruct E as (z & <- & Hz). apply Q. cbn [In] in Hz. lia.
Qed.
Definition comb_parts : list lpart := [LPass; LDelay (mkDur 0 20833)].
Definition comb_heap : heap kit := map (fun p => mkCell kit 1 (chain_block ideal_libm p)) comb_parts.
Example C107_ex_rack : length (delay_new (mkDur 0 20833)) = 1%nat /\ (forall p, In p comb_parts -> l_ok ideal_libm p) /\
  adding (length comb_parts) * rack_amp ideal_libm comb_parts 8 <= bpow radix2 120 /\ made_heap comb_heap /\
  map (get_mut kit comb_heap) [0; 1]%nat = map Some (map (chain_block ideal_libm) comb_parts) /\
  (let '(s, h) := cs_new kit comb_heap (of_Z 1) (of_Z 1) in
   match run_res (cs_step kit kit_prime (kit_process ideal_libm)) (s, h) (build_rack [0; 1]%nat ++ map (fun z => CProcess (of_Z z)) [1; -1; 1; -1; 1; 1; 1]%Z) with
   | Ok (ys, _) => skipn 6 (map (option_map B2SF) ys) = map (fun z => Some (B2SF (of_Z z : f32))) [1; 0; 0; 0; 0; 2; 2]%Z | Panic => False end).
Proof.
  split; [vm_compute; reflexivity|]. split; [intros p [<-|[<-|[]]]; exact I|]. split.
  - unfold rack_amp, adding, comb_parts. cbn [map l_gain l_drift length rsum fold_right]. apply Rle_trans with (bpow radix2 10); [|apply bpow_le; lia].
    change (bpow radix2 (-24)) with (/ 16777216). change (bpow radix2 10) with 1024. lra.
  - split; [|split; [reflexivity|vm_compute; reflexivity]].
    intros n c E. destruct n as [|[|n]]; [| |destruct n; discriminate]; injection E as <-; eexists; (split; [reflexivity|]); do 3 eexists; (split; [reflexivity|]); split; exact I.
Qed.
(** half the sample rate beside one sample of delay: nothing is left *)
Example C107_ex_notch : cn2 (rack_w ideal_libm comb_parts PI (3, 4)) = 0.
Proof.
  unfold comb_parts. rewrite C107_dry_wet_comb. replace (length (delay_new (mkDur 0 20833))) with 1%nat by (vm_compute; reflexivity). change (INR 1) with 1. rewrite Rmult_1_r, cos_PI. ring.
Qed.
