(** * C89-C90: the mixing loop of StandardChannel on a buffer of any content, its gain, and its Clone *)

From Coq Require Import ZArith List Bool Lia Arith.
From Flocq Require Import IEEE754.BinarySingleNaN.
From Verif Require Import Model.Floats Model.SampleFormat Model.Mono Model.Utils Model.Generators Model.Modifiers Model.Sounds Model.Channel Proof.GenericP Proof.SoundsP2 Proof.ChannelP Proof.MixP.
Import ListNotations.
Local Open Scope nat_scope.

Section Mixing.
Variable SF : Type. Variable sf_default : SF. Variable sf_from_sample : f32 -> SF. Variable sf_add : SF -> SF -> SF.
Variable sf_mul_s : SF -> f32 -> SF. Variable max_capacity : Z. Variable overflow_checks : bool.
Variable S : Type. Variable s_register : S -> Z -> S. Variable s_get_id : S -> option Z. Variable s_process : S -> f32 -> res (f32 * S).
Local Notation step := (ch_step SF sf_default sf_from_sample sf_add sf_mul_s max_capacity overflow_checks S s_register s_get_id s_process).
Local Notation process := (ch_process SF sf_default sf_from_sample sf_add sf_mul_s S s_process).

(** ** C89 *)
(** Sample [i] of the buffer after [process] is (what was in it + the [i]-th sample of each registered
    sound, in the order the map yields them) times the gain; each sound has been advanced by one sample
    per entry of the buffer, and nothing else has changed. *)
Theorem C89_process_mixes : forall (c : channel SF) (h : sheap S) (s0 s1 : handle -> S) (ys : handle -> list f32),
  NoDup (map snd (ch_sounds SF c)) ->
  (forall p, In p (map snd (ch_sounds SF c)) -> nth_error h p = Some (mkS S 1 (s0 p)) /\
     run_res s_process (s0 p) (repeat f0 (length (ch_output SF c))) = Ok (ys p, s1 p)) ->
  exists o h', process c h = Ok (mkChannel SF o (ch_sounds SF c) (ch_gain SF c) (ch_counter SF c), h') /\ length o = length (ch_output SF c) /\
    (forall i d, i < length (ch_output SF c) ->
       nth i o d = sf_mul_s (fold_left (fun x p => sf_add x (sf_from_sample (nth i (ys p) f0))) (map snd (ch_sounds SF c)) (nth i (ch_output SF c) d)) (ch_gain SF c)) /\
    (forall p, nth_error h' p = if in_dec Nat.eq_dec p (map snd (ch_sounds SF c)) then Some (mkS S 1 (s1 p)) else nth_error h p).
Proof. intros c h s0 s1 ys. apply process_mix. Qed.
(** A registered sound to which anyone else holds a handle makes [process] panic on any nonempty buffer. *)
Theorem C89_process_panics_if_shared : forall (c : channel SF) (h : sheap S) (p : handle),
  ch_output SF c <> [] -> In p (map snd (ch_sounds SF c)) -> scount S h p <> 1%Z -> process c h = Panic.
Proof. intros c h p. apply process_shared. Qed.
(** The gain used is the last one asked for, rounded to f32, after any history. *)
Theorem C89_gain_is_last_set : forall (gain : f64) (h : sheap S) (ops : list hop) ys st,
  run_res step (ch_new SF gain, h) ops = Ok (ys, st) ->
  ch_gain SF (fst st) = to32 (fold_left (fun g o => match o with HGain g' => g' | _ => g end) ops gain).
Proof. intros gain h ops. apply gain_history. Qed.

(** ** C90 *)
(** A clone has the same buffer, ids, gain and counter; it holds one more handle to each registered sound. *)
Theorem C90_clone_shares_sounds : forall (c : channel SF) (h : sheap S),
  let (c', h') := ch_clone SF S c h in
  c' = c /\ length h' = length h /\
  (forall p, p < length h -> scount S h' p = (scount S h p + entries (ch_sounds SF c) p)%Z) /\
  (forall p, option_map (s_sound S) (nth_error h' p) = option_map (s_sound S) (nth_error h p)).
Proof. intros c h. exact (conj eq_refl (clone_heap S _ h)). Qed.
(** So while both exist neither the original nor the clone can process a nonempty buffer, if any sound
    is registered. *)
Theorem C90_neither_can_process : forall (c : channel SF) (h : sheap S),
  ch_output SF c <> [] -> ch_sounds SF c <> [] -> (forall p, In p (map snd (ch_sounds SF c)) -> p < length h /\ (1 <= scount S h p)%Z) ->
  let (c', h') := ch_clone SF S c h in process c h' = Panic /\ process c' h' = Panic.
Proof.
  intros c h O N H. unfold ch_clone. destruct (clone_heap S (ch_sounds SF c) h) as (_ & B & _).
  assert (P : process c (fold_left (fun h e => s_incr S 1 h (snd e)) (ch_sounds SF c) h) = Panic).
  { destruct (ch_sounds SF c) as [|[id p] l] eqn:E; [congruence|]. rewrite <- E in B |- *. apply (process_shared SF sf_default sf_from_sample sf_add sf_mul_s S s_process c _ p O).
    - rewrite E. left. reflexivity.
    - destruct (H p) as [L C]; [left; reflexivity|]. rewrite B by exact L. assert (I : In (id, p) (ch_sounds SF c)) by (rewrite E; left; reflexivity).
      pose proof (entries_In _ _ _ I). lia. }
  split; exact P.
Qed.
(** Both issue the same id next: ids are unique per channel only. *)
Theorem C90_same_next_id : (forall s id, s_get_id (s_register s id) = Some id) ->
  forall (c : channel SF) (h : sheap S) (p q : handle) c1 h1 c2 h2, (ch_counter SF c + 1 < 2 ^ 64)%Z -> p <> q ->
  let (c', h') := ch_clone SF S c h in
  ch_add_sound SF overflow_checks S s_register c h' p = Ok (c1, h1) -> ch_add_sound SF overflow_checks S s_register c' h1 q = Ok (c2, h2) ->
  id_at S s_get_id h2 p = Some (ch_counter SF c) /\ id_at S s_get_id h2 q = Some (ch_counter SF c).
Proof.
  intros L c h p q c1 h1 c2 h2 B N. unfold ch_clone. intros A1 A2. split.
  - rewrite (add_keeps_other _ _ _ _ _ _ _ _ _ _ _ N A2). exact (add_id _ _ _ _ _ _ _ _ _ _ _ L B A1 eq_refl).
  - exact (add_id _ _ _ _ _ _ _ _ _ _ _ L B A2 eq_refl).
Qed.
End Mixing.

(** the examples: sounds that output 1.0, 2.0, 3.0, ... from their state on; a Mono channel with two of
    them, gain 2, and a buffer that holds 10 and 20 *)
Definition count_process (s : Z) (x : f32) : res (f32 * Z) := Ok (of_Z s, (s + 1)%Z).
Definition mono_channel (buf : list Mono) : channel Mono := mkChannel Mono buf [(1%Z, 2); (0%Z, 0)] (of_Z 2) 2.
Definition count_heap : sheap Z := [mkS Z 1 5; mkS Z 3 7; mkS Z 1 100]%Z.
Definition mono_process := ch_process Mono mono_new mono_from_sample mono_add mono_mul_s Z count_process.
Definition ten_twenty : list Mono := [mkMono (of_Z 10); mkMono (of_Z 20)].
(** (10 + 100 + 5) * 2 = 230 and (20 + 101 + 6) * 2 = 254; the shared sound 1 is not registered *)
Example C89_ex : NoDup (map snd (ch_sounds Mono (mono_channel ten_twenty))) /\
  (forall p, In p (map snd (ch_sounds Mono (mono_channel ten_twenty))) ->
    exists s ys s1, nth_error count_heap p = Some (mkS Z 1 s) /\ run_res count_process s (repeat f0 2) = Ok (ys, s1)) /\
  match mono_process (mono_channel ten_twenty) count_heap with
  | Ok (c, h) => map (fun m => B2SF (mono m)) (ch_output Mono c) = map (fun z => B2SF (of_Z z : f32)) [230; 254]%Z
                 /\ map (s_sound Z) h = [7; 7; 102]%Z /\ map (s_count Z) h = [1; 3; 1]%Z
  | Panic => False end.
Proof.
  split; [cbn; repeat constructor; cbn; intuition lia|]. split; [|vm_compute; repeat split; reflexivity].
  cbn. intros p [<-|[<-|[]]]; do 3 eexists; split; reflexivity.
Qed.
(** registered but kept by the user too: panics *)
Example C89_ex_shared : mono_process (mono_channel ten_twenty) [mkS Z 2 5; mkS Z 1 7; mkS Z 1 100]%Z = Panic.
Proof. vm_compute. reflexivity. Qed.
Example C89_ex_gain :
  match run_res (ch_step Mono mono_new mono_from_sample mono_add mono_mul_s (2 ^ 60) true Z (fun _ id => id) Some count_process) (ch_new Mono (of_Z 1), count_heap)
    [HGain (of_Z 7); HAdd 0; HGain (of_Z 3); HProcess] with
  | Ok (_, st) => B2SF (ch_gain Mono (fst st)) = B2SF (of_Z 3 : f32) | Panic => False end.
Proof. vm_compute. reflexivity. Qed.
Example C90_ex : let (c', h') := ch_clone Mono Z (mono_channel ten_twenty) count_heap in
  map (s_count Z) h' = [2; 3; 2]%Z /\ mono_process (mono_channel ten_twenty) h' = Panic /\ mono_process c' h' = Panic /\
  match ch_add_sound Mono true Z (fun _ id => id) c' (h' ++ [mkS Z 1 0%Z]) 3 with Ok (c2, _) => ch_counter Mono c2 = 3%Z | Panic => False end.
Proof. split; [reflexivity|]. split; [reflexivity|]. split; reflexivity. Qed.
