(** * C102, C103, C104: blocks and sounds made of the library's own parts *)

From Coq Require Import ZArith List Bool Reals Lra Lia.
From Flocq Require Import Core.Core IEEE754.BinarySingleNaN.
From Verif Require Import Model.Floats Model.Utils Model.Generators Model.Modifiers Model.Filters Model.Resampler Model.Sounds Model.Parts
  Spec.Libm Spec.SoundSpec Spec.Decibel Spec.Parts
  Proof.FloatFacts Proof.FormatsP Proof.LibmP Proof.UtilsP Proof.GenericP Proof.AdsrP Proof.AdsrP2 Proof.AdsrP3 Proof.SoundsP Proof.SoundsP2 Proof.SoundsP3 Proof.PartsP Proof.PartsP2.
Import ListNotations.

(** ** C102.  [xss]: for every process call, the list of inputs the block was primed with before it *)
Theorem C102_generator_block : forall (m : libm) (g : gpart) (xss : list (list f32)),
  outputs (run_res (cycle kit_prime (kit_process m)) (kit_generator g) xss) = outputs (run_res (gen_alone (g_step m)) g xss).
Proof. exact kit_generator_plays. Qed.
Theorem C102_modifier_block : forall (m : libm) (p : mpart) (xss : list (list f32)),
  outputs (run_res (cycle kit_prime (kit_process m)) (kit_modifier p) xss) = outputs (run_res (mod_alone (m_step m)) p xss).
Proof. exact kit_modifier_filters. Qed.
Theorem C102_product_block : forall (m : libm) (g : gpart) (p : mpart) (xss : list (list f32)),
  outputs (run_res (cycle kit_prime (kit_process m)) (kit_new g p IDefault) xss) =
  both (outputs (run_res (gen_alone (g_step m)) g xss)) (outputs (run_res (mod_alone (m_step m)) p xss)).
Proof. exact kit_product. Qed.
(** swapping one part after any history leaves the other as far as it had got *)
Theorem C102_swap : forall (m : libm) (i : ipart) (xss : list (list f32)) (g : gpart) (p : mpart) (ys : list f32) (b : kit),
  run_res (cycle kit_prime (kit_process m)) (kit_new g p i) xss = Ok (ys, b) ->
  exists gs ms g' p', run_res (gen_alone (g_step m)) g xss = Ok (gs, g') /\ run_res (mod_alone (m_step m)) p xss = Ok (ms, p') /\
    (forall q, kit_set_m b q 1 = kit_new g' q i) /\ (forall q, kit_set_g b q 1 = kit_new q p' i).
Proof. exact kit_swap. Qed.
(** swapping in a part of which another handle exists: the next process call panics, whatever is swapped beside it *)
Theorem C102_swap_shared : forall (m : libm) (b : kit) (g : gpart) (p : mpart) (c : Z), c <> 1%Z ->
  kit_process m (kit_set_m (kit_set_g b g c) p 1) = Panic /\ kit_process m (kit_set_g (kit_set_m b p c) g 1) = Panic.
Proof. exact shared_swap. Qed.
(** the parts standing alone are the library's generators and modifiers *)
Theorem C102_library_generators : forall (m : libm) (xss : list (list f32)),
  outputs (run_res (gen_alone (g_step m)) GZero xss) = Ok (map (fun _ => f0) xss) /\
  (forall draw n, outputs (run_res (gen_alone (g_step m)) (GNoise draw n) xss) = Ok (map (fun k => noise_process (draw k)) (seq n (length xss)))) /\
  (forall s, outputs (run_res (gen_alone (g_step m)) (GSaw s) xss) = Ok (fst (run (fun s _ => saw_process s) s xss))) /\
  (forall s, outputs (run_res (gen_alone (g_step m)) (GTri s) xss) = Ok (fst (run (fun s _ => tri_process s) s xss))) /\
  (forall s, outputs (run_res (gen_alone (g_step m)) (GSq s) xss) = Ok (fst (run (fun s _ => sq_process s) s xss))) /\
  (forall s, outputs (run_res (gen_alone (g_step m)) (GSin s) xss) = outputs (run_res (fun s _ => sin_process m s) s xss)) /\
  (forall r, outputs (run_res (gen_alone (g_step m)) (GWav r) xss) = outputs (run_res (fun r _ => monowav_process r) r xss)).
Proof. exact library_generators. Qed.
Theorem C102_library_modifiers : forall (m : libm) (xs : list f32), let alone p := outputs (run_res (m_step m) p xs) in
  alone MPass = Ok xs /\
  (forall a, alone (MGain a) = Ok (map (fun x => fmul x a) xs)) /\
  (forall q, alone (MDelay q) = outputs (run_res delay_process q xs)) /\
  (forall e, alone (MEcho e) = outputs (run_res echo_process e xs)) /\
  (forall s, alone (MLow s) = Ok (fst (run lp_process s xs))) /\
  (forall s, alone (MHigh s) = Ok (fst (run hp_process s xs))) /\
  (forall s, alone (MBand s) = Ok (fst (run (bp_process m) s xs))) /\
  (forall e, alone (MEnv e) = Ok (fst (run (env_process num32) e xs))) /\
  (forall e, alone (MAdsr e) = Ok (fst (run adsr_process e xs))) /\
  (forall s, alone (MGeneric s) = outputs (run_res generic_process s xs)).
Proof. exact library_modifiers. Qed.
(** a sound of a single block: the block, primed once per call *)
Theorem C102_one_block_sound : forall (U : Type) (up : U -> f32 -> U) (uo : U -> res (f32 * U)) (gi go : f64) (p : handle) (u : U) (h : heap U) (xs : list f32),
  get_mut U h p = Some (User U u) ->
  outputs (run_res (ss_process U up uo (ss_new gi go p)) h xs) =
  (do ys <- outputs (run_res (cycle up uo) u (map (fun x => [fmul x (to32 gi)]) xs)); Ok (map (fun y => fmul y (to32 go)) ys)).
Proof. exact @single_sound. Qed.

Definition fZ (z : Z) : f32 := of_Z z.
Definition bits {S} (r : res (list f32 * S)) : option (list SpecFloat.spec_float) := match r with Ok (ys, _) => Some (map B2SF ys) | Panic => None end.
Definition whole (l : list Z) : option (list SpecFloat.spec_float) := Some (map (fun z => B2SF (fZ z)) l).
(** a generator that plays 3, 5, 7, 9, ... *)
Definition ramp : gpart := GNoise (fun n => fZ (2 + Z.of_nat n)) 0.
Example C102_ex : let xss := [[fZ 1; fZ 4]; []; [fZ 2]] in
  bits (run_res (cycle kit_prime (kit_process ideal_libm)) (kit_generator ramp) xss) = whole [3; 5; 7]%Z /\
  bits (run_res (cycle kit_prime (kit_process ideal_libm)) (kit_modifier (MGain (fZ 10))) xss) = whole [50; 0; 20]%Z /\
  bits (run_res (cycle kit_prime (kit_process ideal_libm)) (kit_new ramp (MGain (fZ 10)) IDefault) xss) = whole [150; 0; 140]%Z.
Proof. repeat split; vm_compute; reflexivity. Qed.
(** a triangle inside a block, and a block after a swap with a shared generator *)
Example C102_ex_library :
  bits (run_res (cycle kit_prime (kit_process ideal_libm)) (kit_generator (GTri (tri_new (of_Z 12000)))) [[]; []; []; []]) = Some (map B2SF (fst (run (fun s (_ : unit) => tri_process s) (tri_new (of_Z 12000)) [tt; tt; tt; tt]))) /\
  bits (run_res (cycle kit_prime (kit_process ideal_libm)) (kit_generator (GTri (tri_new (of_Z 12000)))) [[]; []; []; []]) = whole [0; 1; 0; -1]%Z /\
  bits (run_res (cycle kit_prime (kit_process ideal_libm)) (kit_set_g (kit_generator ramp) ramp 2) [[]]) = None.
Proof. repeat split; vm_compute; reflexivity. Qed.
Example C102_swap_ex : let step b := cycle kit_prime (kit_process ideal_libm) b in
  bits (do (_, b) <- run_res step (kit_new ramp (MGain (fZ 10)) IDefault) [[fZ 1]; [fZ 1]]; run_res step (kit_set_m b (MGain (fZ 100)) 1) [[fZ 1]; [fZ 1]]) = whole [700; 900]%Z /\
  bits (do (_, b) <- run_res step (kit_new ramp (MDelay [fZ 4; fZ 6]) IDefault) [[fZ 1]]; run_res step (kit_set_g b ramp 1) [[fZ 2]; [fZ 3]]) = whole [18; 5]%Z.
Proof. split; vm_compute; reflexivity. Qed.

(** ** C103.  Relied on but false: that a note can be ended.  Through a block there is no way to [ADSR::release]:
    whatever is done with a sound, its ADSRs stay unreleased ... *)
Theorem C103_simple_never_released : forall (m : libm) (ops : list sop) (s : simple) (h : heap kit) (ys : list (option f32)) (s' : simple) (h' : heap kit),
  held_heap h -> run_res (ss_step kit kit_prime (kit_process m)) (s, h) ops = Ok (ys, (s', h')) -> held_heap h'.
Proof. exact simple_held. Qed.
Theorem C103_complex_never_released : forall (m : libm) (ops : list cop) (s : complex) (h : heap kit) (ys : list (option f32)) (s' : complex) (h' : heap kit),
  held_heap h -> run_res (cs_step kit kit_prime (kit_process m)) (s, h) ops = Ok (ys, (s', h')) -> held_heap h'.
Proof. exact complex_held. Qed.
(** ... and its gain never comes back down to zero, however long it is played *)
Lemma never_ends m a d s r : pow10_unit m -> pow10_accurate m -> is_finite s = true -> (-600 <= B2R s <= 2000)%R -> pos_dur a -> pos_dur d -> pos_dur r ->
  exists c, (0 < c)%R /\ forall xss, xss <> [] -> exists ys e,
    run_res (mod_alone (m_step m)) (MAdsr (adsr_new m a d s r)) xss = Ok (ys, MAdsr e) /\
    (c <= B2R (ad_g e))%R /\ last ys f0 = fmul (sum_in (last xss [])) (ad_g e).
Proof.
  intros HU HA FS HS PA PD PR. apply note_never_ends; try assumption.
  - intro C. subst. discriminate FS.
  - apply sustain_pos; assumption.
Qed.
Theorem C103_note_ends_refuted : forall (m : libm) (a d : duration) (s : f64) (r : duration), pow10_unit m -> pow10_accurate m ->
  is_finite s = true -> (-600 <= B2R s <= 2000)%R -> pos_dur a -> pos_dur d -> pos_dur r ->
  exists c, (0 < c)%R /\ forall xss : list (list f32), xss <> [] -> exists ys e,
    run_res (mod_alone (m_step m)) (MAdsr (adsr_new m a d s r)) xss = Ok (ys, MAdsr e) /\
    (c <= B2R (ad_g e))%R /\ last ys f0 = fmul (sum_in (last xss [])) (ad_g e).
Proof. exact never_ends. Qed.
(** relied on but false: that a generator shaped by an ADSR in one block is heard.  Played with the zero input a
    channel gives it, such a sound is silent for ever, whatever the generator *)
Theorem C103_voice_heard_refuted : forall (m : libm) (a d : duration) (s : f64) (r : duration) (g : gpart) (gi go : f64) (p : handle) (h : heap kit)
    (xs gs : list f32) (g' : gpart), pow10_unit m -> s <> B754_infinity true -> pos_dur a -> pos_dur d -> pos_dur r ->
  get_mut kit h p = Some (User kit (kit_new g (MAdsr (adsr_new m a d s r)) IDefault)) -> is_finite (to32 gi) = true -> is_finite (to32 go) = true ->
  Forall silent xs -> run_res (gen_alone (g_step m)) g (map (fun x => [x]) xs) = Ok (gs, g') -> Forall (fun y => is_finite y = true) gs ->
  exists ys, outputs (run_res (ss_process kit kit_prime (kit_process m) (ss_new gi go p)) h xs) = Ok ys /\ length ys = length xs /\ Forall silent ys.
Proof. exact voice_sound_silent. Qed.
(** primed with one instead, the block is the generator times the envelope *)
Theorem C103_voice_primed : forall (m : libm) (e : adsr) (g : gpart) (xss : list (list f32)), Forall (fun xs => xs = [of_Z 1]) xss ->
  outputs (run_res (cycle kit_prime (kit_process m)) (kit_new g (MAdsr e) IDefault) xss) =
  both (outputs (run_res (gen_alone (g_step m)) g xss)) (Ok (fst (run adsr_process e (repeat (of_Z 1) (length xss))))).
Proof. exact voice_primed. Qed.

Definition note : adsr := adsr_new ideal_libm (mkDur 1 0) (mkDur 1 0) (of_Z 0) (mkDur 1 0).
Example C103_ex : held_heap [mkCell kit 1 (User kit (kit_new ramp (MAdsr note) IDefault))].
Proof.
  intros n c E. destruct n as [|n]; [|destruct n; discriminate]. injection E as <-. left. reflexivity.
Qed.
(** half up, at rate 1/4 per sample *)
Definition quick : adsr := mkAdsr (lit 1 (-2)) (lit (-1) (-2)) (lit 1 (-1)) (lit (-1) (-2)) Attack f0.
Example C103_voice_ex : let v := kit_new ramp (MAdsr quick) IDefault in
  bits (run_res (cycle kit_prime (kit_process ideal_libm)) v (repeat [fZ 0] 6)) = whole [0; 0; 0; 0; 0; 0]%Z /\
  bits (run_res (cycle kit_prime (kit_process ideal_libm)) v (repeat [fZ 4] 6)) = whole [3; 10; 21; 36; 33; 26]%Z.
Proof. split; vm_compute; reflexivity. Qed.

(** ** C104: a sound whose blocks are made of library parts never panics *)
Theorem C104_simple_no_panic : forall (m : libm) (h : heap kit) (s : simple) (ops : list sop), sin_bounded m -> made_heap h ->
  run_res (ss_step kit kit_prime (kit_process m)) (s, h) ops <> Panic.
Proof. exact simple_no_panic. Qed.
Theorem C104_complex_no_panic : forall (m : libm) (h : heap kit) (gi go : f64) (ops : list cop), sin_bounded m -> made_heap h ->
  proper_history kit h ops -> run_res (cs_step kit kit_prime (kit_process m)) (cs_new kit h gi go) ops <> Panic.
Proof. exact complex_no_panic. Qed.

Definition two_blocks : heap kit := [mkCell kit 1 (User kit (kit_generator (GSin (sin_new (of_Z 440))))); mkCell kit 1 (User kit (kit_modifier (MEcho (echo_new (mkDur 0 125000) (lit 1 (-1))))))].
Example C104_ex : made_heap two_blocks /\ proper_history kit two_blocks [CAddBlock 0; CAddBlock 1; CConnect 2 3; CConnect 3 1; CProcess f0; CDisconnect 2 3; CProcess f0].
Proof.
  split.
  - intros n c E. destruct n as [|[|n]]; [| |destruct n; discriminate]; injection E as <-; eexists; (split; [reflexivity|]); do 3 eexists; (split; [reflexivity|]).
    + split; [|exact I]. exists (of_Z 440). split; [reflexivity|]. destruct (of_Z64 440 ltac:(lia)) as [F ->]. split; [exact F|lra].
    + split; [exact I|]. do 2 eexists. split; [reflexivity|]. intro C. apply (f_equal (@length f32)) in C. vm_compute in C. discriminate.
  - intros pre o post E. assert (A : forall p, (p < 2)%nat -> owned kit two_blocks p).
    { intros [|[|p]] Hp; [| |lia]; eexists; (split; [reflexivity|reflexivity]). }
    repeat (destruct pre as [|? pre]; [injection E as <- _; try exact I; try (apply A; lia); cbn; lia|injection E as <- E]); destruct pre; discriminate.
Qed.
(** without the condition on tracks it is false: C25; an echo shorter than a sample panics: C44 *)
