(** * C116: feedback connections of a ComplexSound *)
From Coq Require Import ZArith List Bool Arith Lia.
From Flocq Require Import IEEE754.BinarySingleNaN.
From Verif Require Import Model.Floats Model.Utils Model.Modifiers Model.Sounds Model.Parts Spec.SoundSpec Spec.Libm Spec.Parts Spec.Flow Spec.Branches Spec.Feedback Spec.Convolve
  Proof.LibmP Proof.SoundsP2 Proof.SoundsP3 Proof.FeedbackP2 Proof.FeedbackP3 Properties.Sounds.
Import ListNotations.
Local Open Scope nat_scope.

(** ** C116 *)
(** connections to blocks upstream leave the order of processing as it is without them *)
Theorem C116_order_unchanged : forall (U : Type) (up : U -> f32 -> U) (uo : U -> res (f32 * U)) (h : heap U) (gi go : f64) (pre : list cop) (e : cop)
    (s s' : complex) (back : nat -> nat -> bool), let ops := pre ++ [e] in
  reaches_state U up uo h gi go ops s -> reaches_state U up uo h gi go (map (opened back) ops) s' -> edits_order e = true ->
  with_feedback (blocks ops) (connected ops) back -> cs_order s = cs_order s'.
Proof. exact order_unchanged. Qed.
(** if the other connections are branches in step, every block is processed, after the blocks that feed it and before those
    that feed back to it *)
Theorem C116_order : forall (U : Type) (up : U -> f32 -> U) (uo : U -> res (f32 * U)) (h : heap U) (gi go : f64) (pre : list cop) (e : cop)
    (s : complex) (back : nat -> nat -> bool), let ops := pre ++ [e] in
  reaches_state U up uo h gi go ops s -> edits_order e = true ->
  with_feedback (blocks ops) (connected ops) back -> levelled (blocks ops) (forward (connected ops) back) -> (forall a, ~ connected ops a 0) ->
  (forall x, x < blocks ops -> In x (cs_order s)) /\
  (forall a b, connected ops a b -> if back a b then precedes (cs_order s) b a else precedes (cs_order s) a b).
Proof. exact feedback_levelled. Qed.
(** so feedback arrives exactly one call late and everything else at once *)
Theorem C116_one_call_late : forall (U : Type) (up : U -> f32 -> U) (uo : U -> res (f32 * U)) (h : heap U) (gi go : f64) (pre : list cop) (e : cop)
    (s : complex) (hp : heap U) (bs : list (block U)) (xs ys : list f32) (hp' : heap U) (back : nat -> nat -> bool), let ops := pre ++ [e] in
  reaches_state U up uo h gi go ops s -> edits_order e = true ->
  with_feedback (blocks ops) (connected ops) back -> levelled (blocks ops) (forward (connected ops) back) -> (forall a, ~ connected ops a 0) ->
  cs_paused s = false -> cs_muted s = false -> NoDup (node_handles h ops) ->
  map (get_mut U hp) (node_handles h ops) = map Some bs -> xs <> [] ->
  run_res (cs_process U up uo s) hp xs = Ok (ys, hp') ->
  exists (P Q : nat -> list nat) (out : nat -> nat -> f32),
    (forall m, NoDup (P m) /\ forall a, In a (P m) <-> connected ops a m /\ back a m = false) /\
    (forall m, NoDup (Q m) /\ forall a, In a (Q m) <-> connected ops a m /\ back a m = true) /\
    ys = map (out 1) (seq 0 (length xs)) /\
    forall m b, nth_error bs m = Some b ->
      outputs (run_res (cycle (b_prime U up) (b_process U uo)) b (map (fed_back P Q xs out m) (seq 0 (length xs)))) = Ok (map (out m) (seq 0 (length xs))).
Proof. exact feedback_flow. Qed.
(** a loop around a Delay of [d] samples and a Gain: an Echo of [d + 1] samples, up to the signs of zeros *)
Theorem C116_loop_is_echo : forall (m : libm) (d : nat) (a : f32) (h : heap kit) (gi go : f64) (pre : list cop) (e : cop) (s : complex) (hp : heap kit)
    (xs ys : list f32) (hp' : heap kit), let ops := pre ++ [e] in
  reaches_state kit kit_prime (kit_process m) h gi go ops s -> edits_order e = true ->
  blocks ops = 5 -> (forall x y, connected ops x y <-> In (x, y) [(0, 2); (2, 1); (2, 3); (3, 4); (4, 2)]) ->
  cs_paused s = false -> cs_muted s = false -> NoDup (node_handles h ops) ->
  map (get_mut kit hp) (node_handles h ops) = map Some [Gainer kit (gain_block (to32 gi)); Gainer kit (gain_block (to32 go));
    User kit (kit_modifier MPass); User kit (kit_modifier (MDelay (repeat f0 d))); User kit (kit_modifier (MGain a))] ->
  is_finite a = true -> run_res (cs_process kit kit_prime (kit_process m) s) hp xs = Ok (ys, hp') ->
  exists es q, run_res echo_process (mkEcho (repeat f0 (S d)) a) (map (fun x => fmul (fadd f0 x) (to32 gi)) xs) = Ok (es, q) /\
    Forall2 same_sample ys (map (fun y => fmul y (to32 go)) es).
Proof. exact loop_is_echo. Qed.
(** two samples of delay at half gain: the impulse comes back every three calls *)
Definition ring_pre : list cop := map CAddBlock [0; 1; 2] ++ [CConnect 0 2; CConnect 4 2; CConnect 2 3; CConnect 3 4].
Definition ring_ops : list cop := ring_pre ++ [CConnect 2 1].
Definition ring_heap : heap kit := map (fun p => mkCell kit 1 (User kit (kit_modifier p))) [MPass; MDelay [f0; f0]; MGain (lit 1 (-1))].
Example C116_ex : (forall x y, connected ring_ops x y <-> In (x, y) [(0, 2); (2, 1); (2, 3); (3, 4); (4, 2)]) /\ blocks ring_ops = 5 /\
  with_feedback (blocks ring_ops) (connected ring_ops) (fun a b => (a =? 4) && (b =? 2)) /\
  levelled (blocks ring_ops) (forward (connected ring_ops) (fun a b => (a =? 4) && (b =? 2))) /\ (forall a, ~ connected ring_ops a 0) /\
  (let '(s, h) := cs_new kit ring_heap (dZ 8) (dZ 1) in
   match run_res (cs_step kit kit_prime (kit_process ideal_libm)) (s, h) (ring_ops ++ map (fun z => CProcess (of_Z z)) [1; 0; 0; 0; 0; 0; 0; 0]%Z) with
   | Ok (ys, (s', _)) => skipn 8 (map (option_map B2SF) ys) = map (fun z => Some (B2SF (of_Z z : f32))) [8; 0; 0; 4; 0; 0; 2; 0]%Z /\ cs_order s' = [0; 2; 3; 4; 1] | Panic => False end).
Proof.
  assert (CE : forall x y, connected ring_ops x y <-> In (x, y) [(0, 2); (2, 1); (2, 3); (3, 4); (4, 2)]).
  { intros a b. split.
    - intro H. apply connected_In in H. cbn in H |- *. repeat (destruct H as [H|H]; [try discriminate; injection H as <- <-; tauto|]). destruct H.
    - intro H. apply connected_by.
      + cbn in H |- *. repeat (destruct H as [H|H]; [injection H as <- <-; tauto|]). destruct H.
      + cbn. intro D. repeat (destruct D as [D|D]; [discriminate|]). destruct D. }
  split; [exact CE|]. split; [reflexivity|]. split; [exact (loop_feedback _ CE)|]. split; [exact (loop_levelled _ CE)|]. split.
  - intros a H. apply CE in H. cbn in H. repeat (destruct H as [H|H]; [discriminate|]). destruct H.
  - vm_compute. split; reflexivity.
Qed.
(** a connection from a block to itself is not harmless: made last, it cuts the end off a chain, made first it does not *)
Definition self_first : list cop := map CAddBlock [0; 1; 2; 3] ++ [CConnect 0 2; CConnect 3 4; CConnect 4 5; CConnect 5 1; CConnect 2 2; CConnect 2 3].
Definition self_last : list cop := map CAddBlock [0; 1; 2; 3] ++ [CConnect 0 2; CConnect 3 4; CConnect 4 5; CConnect 5 1; CConnect 2 3; CConnect 2 2].
Theorem C116_self_loop_refuted : forall (U : Type) (up : U -> f32 -> U) (uo : U -> res (f32 * U)) (h : heap U) (gi go : f64),
  exists s s', reaches_state U up uo h gi go self_last s /\ reaches_state U up uo h gi go self_first s' /\
    (forall a b, connected self_last a b <-> connected self_first a b) /\ cs_order s' = [0; 2; 3; 4; 5; 1] /\ ~ In 5 (cs_order s).
Proof.
  intros. eexists. eexists. split; [do 2 eexists; cbv -[gain_block to32 dbl_prime dbl_process b_process b_prime fadd fmul f0]; reflexivity|].
  split; [do 2 eexists; cbv -[gain_block to32 dbl_prime dbl_process b_process b_prime fadd fmul f0]; reflexivity|]. split; [|split].
  - intros a b. split; (intro H; apply connected_In in H; apply connected_by; [cbn in H |- *; tauto|cbn; intro D; repeat (destruct D as [D|D]; [discriminate|]); destruct D]).
  - reflexivity.
  - vm_compute. intro H. repeat (destruct H as [H|H]; [discriminate|]). destruct H.
Qed.
Example C116_ex_self : shown (run_res (cs_step f32 dbl_prime dbl_process) (cs_new f32 (dbl_heap 4) (dZ 1) (dZ 1)) (self_last ++ [CProcess (fZ 1); CProcess (fZ 1)]))
  = vals (map (fun _ => None) self_last ++ [Some 0; Some 0])%Z.
Proof. vm_compute. reflexivity. Qed.
