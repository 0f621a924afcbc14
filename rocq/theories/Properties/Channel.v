(** * C71-C74: StandardChannel *)

From Coq Require Import ZArith List Bool Lia Arith.
From Verif Require Import Model.Floats Model.SampleFormat Model.Mono Model.Utils Model.Generators Model.Modifiers Model.Sounds Model.Channel Proof.SoundsP2 Proof.ChannelP.
Import ListNotations.
Local Open Scope nat_scope.

(** the examples: a Mono channel, and sounds that remember their id and output 1.0 for ever *)
Definition tone_register (s : option Z) (id : Z) : option Z := Some id.
Definition tone_get_id (s : option Z) : option Z := s.
Definition tone_process (s : option Z) (x : f32) : res (f32 * option Z) := Ok (of_Z 1, s).
Definition demo_step := ch_step Mono mono_new mono_from_sample mono_add mono_mul_s (2 ^ 60) true (option Z) tone_register tone_get_id tone_process.
Definition demo_start (n : nat) : channel Mono * sheap (option Z) := (ch_new Mono (of_Z 1), repeat (mkS (option Z) 1 None) n).

(** Both sound types report the id they were registered with. *)
Theorem C71_sounds_report_their_id : (forall s id, ss_id (ss_register s id) = Some id) /\ (forall s id, cs_id (cs_register s id) = Some id).
Proof. split; reflexivity. Qed.

Definition runs {A} (r : res A) : bool := match r with Ok _ => true | Panic => false end.

Section Channel.
Variable SF : Type. Variable sf_default : SF. Variable sf_from_sample : f32 -> SF. Variable sf_add : SF -> SF -> SF.
Variable sf_mul_s : SF -> f32 -> SF. Variable max_capacity : Z. Variable overflow_checks : bool.
Variable S : Type. Variable s_register : S -> Z -> S. Variable s_get_id : S -> option Z. Variable s_process : S -> f32 -> res (f32 * S).
Local Notation step := (ch_step SF sf_default sf_from_sample sf_add sf_mul_s max_capacity overflow_checks S s_register s_get_id s_process).
Local Notation id_at := (id_at S s_get_id).
Local Notation sounds st := (ch_sounds SF (fst st)).

(** ** C71 *)
(** what is registered after any history: the adds not followed by a removal of their id, under the
    number of adds before them; no id twice *)
Theorem C71_registered : forall (gain : f64) (h : sheap S) (ops : list hop) ys st, (adds ops < 2 ^ 64)%Z ->
  run_res step (ch_new SF gain, h) ops = Ok (ys, st) ->
  NoDup (map fst (sounds st)) /\
  forall id p, In (id, p) (sounds st) <->
    exists pre post, ops = pre ++ HAdd p :: post /\ id = adds pre /\ ~ In (HRemove id) post.
Proof.
  intros gain h ops ys st B E. destruct (cinv_history _ _ _ _ _ _ _ _ _ _ _ _ _ _ _ _ B E) as (_ & N & C). exact (conj N C).
Qed.
(** the id each added sound reports right after the call *)
Theorem C71_issued : (forall s id, s_get_id (s_register s id) = Some id) ->
  forall (gain : f64) (h : sheap S) (pre post : list hop) (p : handle) ys st, (adds (pre ++ HAdd p :: post) < 2 ^ 64)%Z ->
  run_res step (ch_new SF gain, h) (pre ++ HAdd p :: post) = Ok (ys, st) -> nth_error ys (length pre) = Some (Some (adds pre)).
Proof. intros L gain h pre post p ys st B E. exact (issued_ids _ _ _ _ _ _ _ _ _ _ _ gain h L _ _ _ B E pre p post eq_refl). Qed.
(** no id is issued twice *)
Theorem C71_issued_once : (forall s id, s_get_id (s_register s id) = Some id) ->
  forall (gain : f64) (h : sheap S) (a b c : list hop) (p q : handle) ys st, (adds (a ++ HAdd p :: b ++ HAdd q :: c) < 2 ^ 64)%Z ->
  run_res step (ch_new SF gain, h) (a ++ HAdd p :: b ++ HAdd q :: c) = Ok (ys, st) ->
  nth_error ys (length a) <> nth_error ys (length (a ++ HAdd p :: b)).
Proof.
  intros L gain h a b c p q ys st B E. rewrite (C71_issued L gain h a (b ++ HAdd q :: c) p ys st B E).
  assert (D : a ++ HAdd p :: b ++ HAdd q :: c = (a ++ HAdd p :: b) ++ HAdd q :: c) by (rewrite <- app_assoc; reflexivity).
  rewrite D in B, E. rewrite (C71_issued L gain h _ c q ys st B E). rewrite adds_app. intro K. injection K as K.
  change (HAdd p :: b) with ([HAdd p] ++ b) in K. rewrite adds_app in K. change (adds [HAdd p]) with 1%Z in K. pose proof (adds_pos b). lia.
Qed.

(** ** C72 *)
(** the output vector is empty after every history, so processing changes nothing and calls no sound *)
Theorem C72_output_always_empty : forall (gain : f64) (h : sheap S) (ops : list hop) ys st,
  run_res step (ch_new SF gain, h) ops = Ok (ys, st) ->
  ch_output SF (fst st) = [] /\
  ch_process SF sf_default sf_from_sample sf_add sf_mul_s S s_process (fst st) (snd st) = Ok st.
Proof.
  intros gain h ops ys st E. assert (O := output_empty_history _ _ _ _ _ _ _ _ _ _ _ _ _ _ _ _ E). split; [exact O|].
  destruct st as [c h']. apply process_does_nothing, O.
Qed.

(** ** C73 *)
(** removing does not touch the id of any sound, registered or not *)
Theorem C73_remove_keeps_ids : forall (c : channel SF) (h : sheap S) (id : Z) (p : handle),
  id_at (snd (ch_remove_sound SF S c h id)) p = id_at h p.
Proof. exact (remove_keeps SF S s_get_id). Qed.
(** in every history a sound keeps the id of its last add, whatever has been removed since *)
Theorem C73_id_survives_history : (forall s id, s_get_id (s_register s id) = Some id) ->
  forall (gain : f64) (h : sheap S) (pre post : list hop) (p : handle) ys st, (adds (pre ++ HAdd p :: post) < 2 ^ 64)%Z ->
  run_res step (ch_new SF gain, h) (pre ++ HAdd p :: post) = Ok (ys, st) -> ~ In (HAdd p) post ->
  id_at (snd st) p = Some (adds pre).
Proof. intros L gain h pre post p ys st B E N. exact (id_after_add _ _ _ _ _ _ _ _ _ _ _ gain h pre p post ys st L B E N). Qed.

(** ** C74 *)
Theorem C74_add_panics_iff_shared : forall (c : channel SF) (h : sheap S) (p : handle), (ch_counter SF c + 1 < 2 ^ 64)%Z ->
  (ch_add_sound SF overflow_checks S s_register c h p = Panic <-> scount S h p <> 1%Z).
Proof. exact (add_panics_iff SF overflow_checks S s_register). Qed.
(** the handles in existence: the user's and one for each entry of the channel *)
Theorem C74_handles_accounted : forall (gain : f64) (h : sheap S) (ops : list hop) ys st, (adds ops < 2 ^ 64)%Z ->
  run_res step (ch_new SF gain, h) ops = Ok (ys, st) -> forall p, p < length h ->
  scount S (snd st) p = (scount S h p + user_handles ops p + Z.of_nat (length (filter (fun e => Nat.eqb (snd e) p) (sounds st))))%Z.
Proof. intros gain h ops ys st B E. exact (proj2 (account_history _ _ _ _ _ _ _ _ _ _ _ gain h ops ys st B E)). Qed.
(** a sound that is still in the channel cannot be added by whoever still holds a handle *)
Theorem C74_add_twice_panics : forall (gain : f64) (h : sheap S) (pre mid : list hop) (p : handle) ys st,
  (adds (pre ++ HAdd p :: mid) + 1 < 2 ^ 64)%Z -> p < length h ->
  run_res step (ch_new SF gain, h) (pre ++ HAdd p :: mid) = Ok (ys, st) ->
  ~ In (HRemove (adds pre)) mid -> (1 <= scount S h p + user_handles (pre ++ HAdd p :: mid) p)%Z ->
  step st (HAdd p) = Panic.
Proof. intros gain h pre mid p ys st. exact (add_twice_panics _ _ _ _ _ _ _ _ _ _ _ gain h pre p mid ys st). Qed.
End Channel.

Example C71_ex : match run_res demo_step (demo_start 3) [HAdd 0; HAdd 1; HRemove 0; HAdd 2; HProcess; HGain (of_Z 2); HAdd 0; HRemove 1] with
  | Ok (ys, st) => ys = [Some 0; Some 1; None; Some 2; None; None; Some 3; None]%Z /\ ch_sounds Mono (fst st) = [(3%Z, 0); (2%Z, 2)]
                   /\ map (id_at _ tone_get_id (snd st)) [0; 1; 2] = [Some 3; Some 1; Some 2]%Z
  | Panic => False end.
Proof. vm_compute. repeat split; reflexivity. Qed.
(** what a user relies on: process delivers the process time's worth of samples *)
Theorem C72_process_fills_output_refuted : ~ (forall (ops : list hop) (d : duration) ys st,
  run_res demo_step (demo_start 1) (ops ++ [HTime d; HProcess]) = Ok (ys, st) ->
  Z.of_nat (length (ch_output Mono (fst st))) = to_usize (fmul (as_secs_f64 d) SR64)).
Proof.
  intro H. specialize (H [HAdd 0] (mkDur 0 10000000)).
  destruct (run_res demo_step (demo_start 1) ([HAdd 0] ++ [HTime (mkDur 0 10000000); HProcess])) as [[ys st]|] eqn:E.
  - specialize (H _ _ eq_refl). rewrite (proj1 (C72_output_always_empty _ _ _ _ _ _ _ _ _ _ _ _ _ _ _ _ E)) in H. vm_compute in H. discriminate.
  - assert (R : runs (run_res demo_step (demo_start 1) ([HAdd 0] ++ [HTime (mkDur 0 10000000); HProcess])) = true) by (vm_compute; reflexivity).
    rewrite E in R. discriminate.
Qed.
(** what a user relies on: a removed sound reports no id *)
Theorem C73_removed_has_no_id_refuted : ~ (forall (ops : list hop) (id : Z) (p : handle) ys st ys' st',
  run_res demo_step (demo_start 1) ops = Ok (ys, st) -> In (id, p) (ch_sounds Mono (fst st)) ->
  run_res demo_step st [HRemove id] = Ok (ys', st') -> id_at _ tone_get_id (snd st') p = None).
Proof.
  intro H. destruct (run_res demo_step (demo_start 1) [HAdd 0]) as [[ys st]|] eqn:E.
  2: { assert (R : runs (run_res demo_step (demo_start 1) [HAdd 0]) = true) by (vm_compute; reflexivity). rewrite E in R. discriminate. }
  assert (I : In (0%Z, 0) (ch_sounds Mono (fst st))).
  { apply (C71_registered Mono mono_new mono_from_sample mono_add mono_mul_s (2 ^ 60)%Z true (option Z) tone_register tone_get_id tone_process (of_Z 1) (repeat (mkS (option Z) 1 None) 1) [HAdd 0] ys st); [reflexivity|exact E|].
    exists [], []. split; [reflexivity|]. split; [reflexivity|]. intros []. }
  destruct (run_res demo_step st [HRemove 0]) as [[ys' st']|] eqn:E'; [|destruct st; discriminate E'].
  assert (K := H _ _ _ _ _ _ _ E I E'). destruct st as [c h]. cbn in E'. injection E' as <- <-. cbn [snd] in K.
  rewrite (C73_remove_keeps_ids Mono (option Z) tone_get_id c h 0%Z 0) in K.
  assert (K2 := C73_id_survives_history Mono mono_new mono_from_sample mono_add mono_mul_s (2 ^ 60)%Z true (option Z) tone_register tone_get_id tone_process (fun _ _ => eq_refl)
    (of_Z 1) (repeat (mkS (option Z) 1 None) 1) [] [] 0 ys (c, h) eq_refl E ltac:(intros [])).
  cbn [snd] in K2. congruence.
Qed.
(** removed by the user's own handle, a sound can be added again; added twice it panics *)
Example C74_ex :
  match run_res demo_step (demo_start 2) [HAdd 0; HRemove 0; HAdd 0; HClone 1] with
  | Ok (_, st) => scount _ (snd st) 0 = 2%Z /\ scount _ (snd st) 1 = 2%Z /\ demo_step st (HAdd 0) = Panic /\ demo_step st (HAdd 1) = Panic
                  /\ user_handles [HAdd 0; HRemove 0; HAdd 0; HClone 1] 0 = 0%Z
  | Panic => False end.
Proof. vm_compute. repeat split; reflexivity. Qed.
