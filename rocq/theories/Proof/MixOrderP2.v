(** * The order of mixing, for Mono and Stereo *)
From Coq Require Import ZArith List Bool Reals Lra Lia Permutation.
From Flocq Require Import Core.Core IEEE754.BinarySingleNaN.
From Verif Require Import Model.Floats Model.SampleFormat Model.Mono Model.Stereo Model.Utils Model.Generators Model.Modifiers Model.Sounds Model.Channel
  Spec.Rack Spec.MixOrder Proof.FloatFacts Proof.SampleFormatP Proof.FormatsP Proof.GenericP Proof.SoundsP2 Proof.ChannelP Proof.MixP Proof.RackP Proof.MixOrderP.
Import ListNotations.
Local Open Scope R_scope.

Lemma mono_near (g : f32) (b : Mono) (ys : handle -> f32) (ps qs : list handle) : Permutation ps qs -> mix_room g (mono b) (map ys ps) ->
  near_mix g (mono b) (map ys ps) (mono (mono_mul_s_assign (fold_left (fun x p => mono_add_assign x (mono_from_sample (ys p))) qs b) g)).
Proof. intros P R. exact (side_near Mono mono_from_sample mono_add_assign mono_mul_s_assign mono (fun y => y) (fun _ _ => eq_refl) (fun _ _ => eq_refl) (fun _ => eq_refl) g b ys ps qs P R). Qed.
Lemma left_near (g : f32) (b : Stereo) (ys : handle -> f32) (ps qs : list handle) : Permutation ps qs -> mix_room g (left b) (map (fun p => fmul (ys p) sqrt_half) ps) ->
  near_mix g (left b) (map (fun p => fmul (ys p) sqrt_half) ps) (left (stereo_mul_s_assign (fold_left (fun x p => stereo_add_assign x (stereo_from_sample (ys p))) qs b) g)).
Proof. intros P R. exact (side_near Stereo stereo_from_sample stereo_add_assign stereo_mul_s_assign left (fun y => fmul y sqrt_half) (fun _ _ => eq_refl) (fun _ _ => eq_refl) (fun _ => eq_refl) g b ys ps qs P R). Qed.
Lemma right_near (g : f32) (b : Stereo) (ys : handle -> f32) (ps qs : list handle) : Permutation ps qs -> mix_room g (right b) (map (fun p => fmul (ys p) sqrt_half) ps) ->
  near_mix g (right b) (map (fun p => fmul (ys p) sqrt_half) ps) (right (stereo_mul_s_assign (fold_left (fun x p => stereo_add_assign x (stereo_from_sample (ys p))) qs b) g)).
Proof. intros P R. exact (side_near Stereo stereo_from_sample stereo_add_assign stereo_mul_s_assign right (fun y => fmul y sqrt_half) (fun _ _ => eq_refl) (fun _ _ => eq_refl) (fun _ => eq_refl) g b ys ps qs P R). Qed.
Lemma mono_fold (ys : handle -> f32) l b : fold_left (fun x p => mono_add_assign x (mono_from_sample (ys p))) l b = mkMono (fold_left fadd (map ys l) (mono b)).
Proof. revert b. induction l as [|p l IH]; intro b; [destruct b; reflexivity|]. cbn [fold_left map]. rewrite IH. reflexivity. Qed.

Section Two.
Variable S : Type. Variable s_process : S -> f32 -> res (f32 * S).
Local Notation runs_ok c h s0 ys s1 := (forall p, In p (map snd (ch_sounds _ c)) -> nth_error h p = Some (mkS S 1 (s0 p)) /\ run_res s_process (s0 p) (repeat f0 (length (ch_output _ c))) = Ok (ys p, s1 p)).
Local Notation mono_process := (ch_process Mono mono_new mono_from_sample mono_add_assign mono_mul_s_assign S s_process).
Local Notation stereo_process := (ch_process Stereo stereo_new stereo_from_sample stereo_add_assign stereo_mul_s_assign S s_process).

Lemma mono_order (c : channel Mono) (h : sheap S) (s0 s1 : handle -> S) (ys : handle -> list f32) l :
  NoDup (map snd (ch_sounds _ c)) -> Permutation (ch_sounds _ c) l -> runs_ok c h s0 ys s1 ->
  exists o o' h', mono_process c h = Ok (mkChannel _ o (ch_sounds _ c) (ch_gain _ c) (ch_counter _ c), h') /\
    mono_process (reordered c l) h = Ok (mkChannel _ o' l (ch_gain _ c) (ch_counter _ c), h') /\ length o = length (ch_output _ c) /\ length o' = length (ch_output _ c) /\
    forall i, (i < length (ch_output _ c))%nat -> let b := mono (nth i (ch_output _ c) mono_new) in let vs := map (fun p => nth i (ys p) f0) (map snd (ch_sounds _ c)) in
      mix_room (ch_gain _ c) b vs -> near_mix (ch_gain _ c) b vs (mono (nth i o mono_new)) /\ near_mix (ch_gain _ c) b vs (mono (nth i o' mono_new)).
Proof.
  intros ND P H. destruct (order_mix Mono mono_new mono_from_sample mono_add_assign mono_mul_s_assign S s_process c h s0 s1 ys l ND P H) as (o & o' & h' & E & E' & L & L' & _ & V).
  exists o, o', h'. split; [exact E|]. split; [exact E'|]. split; [exact L|]. split; [exact L'|]. intros i Hi b vs R. destruct (V i mono_new Hi) as [V1 V2]. rewrite V1, V2.
  split; apply (mono_near _ _ (fun p => nth i (ys p) f0)); try exact R; [apply Permutation_refl|apply Permutation_map, P].
Qed.
Lemma stereo_order (c : channel Stereo) (h : sheap S) (s0 s1 : handle -> S) (ys : handle -> list f32) l :
  NoDup (map snd (ch_sounds _ c)) -> Permutation (ch_sounds _ c) l -> runs_ok c h s0 ys s1 ->
  exists o o' h', stereo_process c h = Ok (mkChannel _ o (ch_sounds _ c) (ch_gain _ c) (ch_counter _ c), h') /\
    stereo_process (reordered c l) h = Ok (mkChannel _ o' l (ch_gain _ c) (ch_counter _ c), h') /\ length o = length (ch_output _ c) /\ length o' = length (ch_output _ c) /\
    forall i, (i < length (ch_output _ c))%nat -> let vs := map (fun p => fmul (nth i (ys p) f0) sqrt_half) (map snd (ch_sounds _ c)) in
      (let b := left (nth i (ch_output _ c) stereo_new) in
       mix_room (ch_gain _ c) b vs -> near_mix (ch_gain _ c) b vs (left (nth i o stereo_new)) /\ near_mix (ch_gain _ c) b vs (left (nth i o' stereo_new))) /\
      (let b := right (nth i (ch_output _ c) stereo_new) in
       mix_room (ch_gain _ c) b vs -> near_mix (ch_gain _ c) b vs (right (nth i o stereo_new)) /\ near_mix (ch_gain _ c) b vs (right (nth i o' stereo_new))).
Proof.
  intros ND P H. destruct (order_mix Stereo stereo_new stereo_from_sample stereo_add_assign stereo_mul_s_assign S s_process c h s0 s1 ys l ND P H) as (o & o' & h' & E & E' & L & L' & _ & V).
  exists o, o', h'. split; [exact E|]. split; [exact E'|]. split; [exact L|]. split; [exact L'|]. intros i Hi vs. destruct (V i stereo_new Hi) as [V1 V2]. rewrite V1, V2.
  split; intros b R; split.
  1,2: apply (left_near _ _ (fun p => nth i (ys p) f0)); try exact R; [apply Permutation_refl || apply Permutation_map, P].
  1,2: apply (right_near _ _ (fun p => nth i (ys p) f0)); try exact R; [apply Permutation_refl || apply Permutation_map, P].
Qed.
Lemma mono_two (c : channel Mono) (h : sheap S) (s0 s1 : handle -> S) (ys : handle -> list f32) x y n :
  ch_sounds _ c = [x; y] -> snd x <> snd y -> ch_output _ c = repeat mono_new n -> runs_ok c h s0 ys s1 ->
  exists o h', mono_process c h = Ok (mkChannel _ o [x; y] (ch_gain _ c) (ch_counter _ c), h') /\ mono_process (reordered c [y; x]) h = Ok (mkChannel _ o [y; x] (ch_gain _ c) (ch_counter _ c), h').
Proof.
  intros ES N EO H. assert (ND : NoDup (map snd (ch_sounds _ c))) by (rewrite ES; repeat constructor; cbn; intuition congruence).
  destruct (order_mix Mono mono_new mono_from_sample mono_add_assign mono_mul_s_assign S s_process c h s0 s1 ys [y; x] ND) as (o & o' & h' & E & E' & L & L' & _ & V); [rewrite ES; apply perm_swap|exact H|].
  rewrite ES in E, V. exists o, h'. split; [exact E|]. rewrite E'. do 3 f_equal. apply (nth_ext _ _ mono_new mono_new); [lia|]. intros i Hi. rewrite L' in Hi. destruct (V i mono_new Hi) as [V1 V2]. rewrite V1, V2.
  rewrite !(mono_fold (fun p => nth i (ys p) f0)), EO, nth_repeat. cbn [map fold_left mono mono_new]. rewrite two_commute. reflexivity.
Qed.
Lemma stereo_two (c : channel Stereo) (h : sheap S) (s0 s1 : handle -> S) (ys : handle -> list f32) x y n :
  ch_sounds _ c = [x; y] -> snd x <> snd y -> ch_output _ c = repeat stereo_new n -> runs_ok c h s0 ys s1 ->
  exists o h', stereo_process c h = Ok (mkChannel _ o [x; y] (ch_gain _ c) (ch_counter _ c), h') /\ stereo_process (reordered c [y; x]) h = Ok (mkChannel _ o [y; x] (ch_gain _ c) (ch_counter _ c), h').
Proof.
  intros ES N EO H. assert (ND : NoDup (map snd (ch_sounds _ c))) by (rewrite ES; repeat constructor; cbn; intuition congruence).
  destruct (order_mix Stereo stereo_new stereo_from_sample stereo_add_assign stereo_mul_s_assign S s_process c h s0 s1 ys [y; x] ND) as (o & o' & h' & E & E' & L & L' & _ & V); [rewrite ES; apply perm_swap|exact H|].
  rewrite ES in E, V. exists o, h'. split; [exact E|]. rewrite E'. do 3 f_equal. apply (nth_ext _ _ stereo_new stereo_new); [lia|]. intros i Hi. rewrite L' in Hi. destruct (V i stereo_new Hi) as [V1 V2]. rewrite V1, V2.
  rewrite EO, nth_repeat. cbn [map fold_left snd]. unfold stereo_add_assign, stereo_from_sample, stereo_new. cbn [left right]. rewrite two_commute. reflexivity.
Qed.
Lemma mono_grid (c : channel Mono) (h : sheap S) (s0 s1 : handle -> S) (ys : handle -> list f32) l (e : Z) (zb : nat -> Z) (z : nat -> handle -> Z) :
  NoDup (map snd (ch_sounds _ c)) -> Permutation (ch_sounds _ c) l -> runs_ok c h s0 ys s1 -> (-149 <= e <= 103)%Z ->
  (forall i, (i < length (ch_output _ c))%nat -> let b := mono (nth i (ch_output _ c) mono_new) in
     is_finite b = true /\ b <> B754_zero true /\ B2R b = IZR (zb i) * bpow radix2 e /\
     (forall p, In p (map snd (ch_sounds _ c)) -> let y := nth i (ys p) f0 in is_finite y = true /\ B2R y = IZR (z i p) * bpow radix2 e) /\
     (Z.abs (zb i) + fold_right (fun m a => Z.abs m + a) 0 (map (z i) (map snd (ch_sounds _ c))) < 2 ^ 24)%Z) ->
  exists o h', mono_process c h = Ok (mkChannel _ o (ch_sounds _ c) (ch_gain _ c) (ch_counter _ c), h') /\ mono_process (reordered c l) h = Ok (mkChannel _ o l (ch_gain _ c) (ch_counter _ c), h').
Proof.
  intros ND P H He HG. destruct (order_mix Mono mono_new mono_from_sample mono_add_assign mono_mul_s_assign S s_process c h s0 s1 ys l ND P H) as (o & o' & h' & E & E' & L & L' & _ & V).
  exists o, h'. split; [exact E|]. rewrite E'. do 3 f_equal. apply (nth_ext _ _ mono_new mono_new); [lia|]. intros i Hi. rewrite L' in Hi. destruct (V i mono_new Hi) as [V1 V2]. rewrite V1, V2.
  rewrite !(mono_fold (fun p => nth i (ys p) f0)). f_equal. f_equal. symmetry. destruct (HG i Hi) as (Fb & Nb & Vb & Vs & B).
  exact (grid_any_order e _ (zb i) (z i) (fun p => nth i (ys p) f0) _ _ He Fb Nb Vb Vs B (Permutation_map snd P)).
Qed.
Lemma mono_u8 (c : channel Mono) (h : sheap S) (s0 s1 : handle -> S) (ys : handle -> list f32) l n :
  NoDup (map snd (ch_sounds _ c)) -> Permutation (ch_sounds _ c) l -> runs_ok c h s0 ys s1 -> ch_output _ c = repeat mono_new n -> (Z.of_nat (length (ch_sounds _ c)) < 131072)%Z ->
  (forall i p, (i < n)%nat -> In p (map snd (ch_sounds _ c)) -> exists v, (0 <= v <= 255)%Z /\ nth i (ys p) f0 = sample_from_u8 v) ->
  exists o h', mono_process c h = Ok (mkChannel _ o (ch_sounds _ c) (ch_gain _ c) (ch_counter _ c), h') /\ mono_process (reordered c l) h = Ok (mkChannel _ o l (ch_gain _ c) (ch_counter _ c), h').
Proof.
  intros ND P H EO HN HU. set (z := fun i p => (sample_to_u8 (nth i (ys p) f0) - 128)%Z).
  assert (Z1 : forall i p, (i < n)%nat -> In p (map snd (ch_sounds _ c)) -> (Z.abs (z i p) <= 128)%Z /\ fin (nth i (ys p) f0) /\ B2R (nth i (ys p) f0) = IZR (z i p) * bpow radix2 (-7)).
  { intros i p Hi Hp. destruct (HU i p Hi Hp) as (v & Hv & E). unfold z. rewrite E, u8_round_trip by exact Hv. destruct (from_u8_ok v Hv) as [F V]. split; [lia|]. split; [exact F|]. rewrite V, minus_IZR. change (bpow radix2 (-7)) with (/ 128). lra. }
  apply (mono_grid c h s0 s1 ys l (-7) (fun _ => 0%Z) z ND P H); [lia|]. rewrite EO, repeat_length. intros i Hi. rewrite nth_repeat.
  split; [reflexivity|]. split; [discriminate|]. split; [cbn; lra|]. split; [intros p Hp; exact (proj2 (Z1 i p Hi Hp))|].
  assert (B : forall ps, (forall p, In p ps -> In p (map snd (ch_sounds _ c))) -> (fold_right (fun m a => Z.abs m + a) 0 (map (z i) ps) <= 128 * Z.of_nat (length ps))%Z).
  { induction ps as [|p ps IH]; intro I; [cbn; lia|]. cbn [map fold_right length]. assert (A := proj1 (Z1 i p Hi (I p (or_introl eq_refl)))). assert (IH' := IH (fun q Hq => I q (or_intror Hq))). lia. }
  specialize (B _ (fun p Hp => Hp)). rewrite map_length in B. rewrite Z.abs_0. lia.
Qed.
End Two.
(** sounds that play their own state, over and over *)
Definition constant_sound (s : f32) (x : f32) : res (f32 * f32) := Ok (s, s).
Definition tiny : f32 := fdiv f1 (of_Z 16777216).

(** the example: three sounds that play 1, 2^-24 and 2^-24, gain 1, one sample in the buffer *)
Definition big_and_tiny : sheap f32 := [mkS f32 1 f1; mkS f32 1 tiny; mkS f32 1 tiny].
Definition three : list (Z * handle) := [(0%Z, 0%nat); (1%Z, 1%nat); (2%Z, 2%nat)].
Definition three' : list (Z * handle) := [(1%Z, 1%nat); (2%Z, 2%nat); (0%Z, 0%nat)].
Definition three_channel : channel Mono := mkChannel Mono [mono_new] three f1 3.
Definition constant_process := ch_process Mono mono_new mono_from_sample mono_add_assign mono_mul_s_assign f32 constant_sound.
Lemma three_perm : Permutation three three'.
Proof. unfold three, three'. eapply perm_trans; [apply perm_swap|]. apply perm_skip, perm_swap. Qed.
Lemma bits_differ : exists (c : channel Mono) (l : list (Z * handle)) (h : sheap f32) c1 c2 h1 h2,
  NoDup (map snd (ch_sounds _ c)) /\ Permutation (ch_sounds _ c) l /\ ch_output _ c = [mono_new] /\
  constant_process c h = Ok (c1, h1) /\ constant_process (reordered c l) h = Ok (c2, h2) /\ ch_output _ c1 <> ch_output _ c2.
Proof.
  assert (N : match constant_process three_channel big_and_tiny, constant_process (reordered three_channel three') big_and_tiny with
    | Ok (c1, _), Ok (c2, _) => map (fun m => B2SF (mono m)) (ch_output _ c1) <> map (fun m => B2SF (mono m)) (ch_output _ c2) | _, _ => False end) by (vm_compute; discriminate).
  exists three_channel, three', big_and_tiny.
  destruct (constant_process three_channel big_and_tiny) as [[c1 h1]|] eqn:E1; [|elim N]. destruct (constant_process (reordered three_channel three') big_and_tiny) as [[c2 h2]|] eqn:E2; [|elim N].
  exists c1, c2, h1, h2. split; [cbn; repeat constructor; cbn; intuition lia|]. split; [exact three_perm|]. split; [reflexivity|]. split; [reflexivity|]. split; [reflexivity|]. intro E. apply N. rewrite E. reflexivity.
Qed.
Lemma three_ok : NoDup (map snd (ch_sounds _ three_channel)) /\ Permutation (ch_sounds _ three_channel) three' /\
  (forall p, In p (map snd (ch_sounds _ three_channel)) -> exists s ys s1, nth_error big_and_tiny p = Some (mkS f32 1 s) /\ run_res constant_sound s (repeat f0 1) = Ok (ys, s1)) /\
  mix_room f1 f0 [f1; tiny; tiny] /\ mix_err f1 f0 [f1; tiny; tiny] <= 5 * bpow radix2 (-24).
Proof.
  split; [cbn; repeat constructor; cbn; intuition lia|]. split; [exact three_perm|]. split.
  { cbn [map snd three_channel ch_sounds three]. intros p [<-|[<-|[<-|[]]]]; do 3 eexists; split; reflexivity. }
  assert (V1 : fin (f1 : f32) /\ B2R (f1 : f32) = 1) by (destruct (B2R_of_SF (f1 : f32) false 8388608 (-23)) as [F ->]; [vm_compute; reflexivity|split; [exact F|cbn; lra]]).
  assert (VT : fin tiny /\ B2R tiny = bpow radix2 (-24)) by (destruct (B2R_of_SF tiny false 8388608 (-47)) as [F ->]; [vm_compute; reflexivity|split; [exact F|cbn; lra]]).
  destruct V1 as [F1 V1]. destruct VT as [FT VT].
  assert (W : mix_weight f0 [f1; tiny; tiny] = 1 + 2 * bpow radix2 (-24)).
  { unfold mix_weight, rsum. cbn [map fold_right]. rewrite V1, VT. change (B2R f0) with 0. rewrite Rabs_R0, Rabs_R1, (Rabs_pos_eq (bpow radix2 (-24))) by apply bpow_ge_0. ring. }
  unfold mix_room, mix_err. rewrite W, V1, Rabs_R1. cbn [length]. unfold adding. cbn [pow]. 
  assert (B : bpow radix2 (-24) = / 16777216) by (cbn; lra). assert (B1 : bpow radix2 120 >= 2) by (apply Rle_ge; apply (Rle_trans _ (bpow radix2 1)); [cbn; lra|apply bpow_le; lia]). assert (B2 : bpow radix2 127 >= 2) by (apply Rle_ge; apply (Rle_trans _ (bpow radix2 1)); [cbn; lra|apply bpow_le; lia]).
  assert (B3 : bpow radix2 (-150) <= bpow radix2 (-25)) by (apply bpow_le; lia). assert (B4 : bpow radix2 (-25) = / 33554432) by (cbn; lra). rewrite B. split; [|lra].
  split; [exact F1|]. split; [reflexivity|]. split; [repeat constructor; assumption|]. split; lra.
Qed.
