(** * C106: what flows along the connections of a ComplexSound *)
From Coq Require Import ZArith List Bool Arith Lia Permutation.
From Flocq Require Import IEEE754.BinarySingleNaN.
From Verif Require Import Model.Floats Model.Modifiers Model.Sounds Spec.SoundSpec Spec.Parts Spec.Flow Proof.SoundsP2 Proof.SoundsP3 Proof.FlowP Proof.FlowP2 Properties.Sounds.
Import ListNotations.

(** ** C106 *)
(** for any blocks and any connections, cyclic or not: each block of the processing order is run once per call on what
    arrives at it - this call's output of connected blocks that come before it, last call's output of the others - and
    the sound puts out what block 1 puts out *)
Theorem C106_dataflow : forall (U : Type) (up : U -> f32 -> U) (uo : U -> res (f32 * U)) (h : heap U) (gi go : f64) (ops : list cop) (s : complex)
    (E : nat -> nat -> bool) (hp : heap U) (bs : list (block U)) (xs ys : list f32) (hp' : heap U),
  reaches_state U up uo h gi go ops s -> (exists e, In e ops /\ edits_order e = true) ->
  (forall a b, E a b = true <-> connected ops a b) -> cs_paused s = false -> cs_muted s = false ->
  NoDup (node_handles h ops) -> map (get_mut U hp) (node_handles h ops) = map Some bs ->
  run_res (cs_process U up uo s) hp xs = Ok (ys, hp') ->
  exists out : nat -> nat -> f32, ys = map (out 1) (seq 0 (length xs)) /\
    forall la m lb, cs_order s = la ++ m :: lb -> xs <> [] -> exists b, nth_error bs m = Some b /\
      outputs (run_res (cycle (b_prime U up) (b_process U uo)) b (map (arrivals E la (m :: lb) m xs out) (seq 0 (length xs)))) =
      Ok (map (out m) (seq 0 (length xs))).
Proof. exact dataflow. Qed.
(** a loop with feedback, 0 -> 2 -> 3 -> 2 and 3 -> 1, of doubling blocks: the impulse comes round once per call *)
Definition loop_ops : list cop := map CAddBlock [0; 1] ++ [CConnect 0 2; CConnect 2 3; CConnect 3 2; CConnect 3 1].
Example C106_ex : (forall gi go, exists s, reaches_state f32 dbl_prime dbl_process (dbl_heap 2) gi go loop_ops s /\ cs_order s = [0; 2; 3; 1]) /\
  NoDup (node_handles (dbl_heap 2) loop_ops) /\
  shown (run_res (cs_step f32 dbl_prime dbl_process) (cs_new f32 (dbl_heap 2) (dZ 1) (dZ 1)) (loop_ops ++ [CProcess (fZ 1); CProcess (fZ 0); CProcess (fZ 0); CProcess (fZ 1)]))
  = vals (map (fun _ => None) loop_ops ++ [Some 4; Some 16; Some 64; Some 260])%Z /\
  (let E := fun a b => existsb (fun p => (fst p =? a) && (snd p =? b)) [(0, 2); (2, 3); (3, 2); (3, 1)] in
   let out := fun a k => nth k (nth a [[fZ 1; fZ 0; fZ 0]; [fZ 4; fZ 16; fZ 64]; [fZ 2; fZ 8; fZ 32]; [fZ 4; fZ 16; fZ 64]] []) f0 in
   map (arrivals E [0] [2; 3; 1] 2 [fZ 1; fZ 0; fZ 0] out) [0; 1; 2] = [[fZ 1]; [fZ 4; fZ 0]; [fZ 16; fZ 0]]).
Proof.
  split; [intros; eexists; split; [do 2 eexists; cbv -[gain_block to32 dbl_prime dbl_process b_process b_prime fadd fmul f0]; reflexivity|reflexivity]|].
  split; [vm_compute; repeat constructor; cbn; lia|]. split; [vm_compute; reflexivity|reflexivity].
Qed.
(** every block has one input, nothing leaves the output or enters the input block: no delays at all - each block is fed,
    call by call, exactly what its one predecessor puts out *)
Theorem C106_one_input_no_delay : forall (U : Type) (up : U -> f32 -> U) (uo : U -> res (f32 * U)) (h : heap U) (gi go : f64) (pre : list cop) (e : cop)
    (s : complex) (hp : heap U) (bs : list (block U)) (xs ys : list f32) (hp' : heap U), let ops := pre ++ [e] in
  reaches_state U up uo h gi go ops s -> edits_order e = true ->
  one_input (connected ops) -> (forall a, ~ connected ops a 0) -> (forall b, ~ connected ops 1 b) ->
  cs_paused s = false -> cs_muted s = false -> NoDup (node_handles h ops) ->
  map (get_mut U hp) (node_handles h ops) = map Some bs -> xs <> [] ->
  run_res (cs_process U up uo s) hp xs = Ok (ys, hp') ->
  exists out : nat -> nat -> f32, ys = map (out 1) (seq 0 (length xs)) /\
    (exists b, nth_error bs 0 = Some b /\
       outputs (run_res (cycle (b_prime U up) (b_process U uo)) b (map (fun x => [x]) xs)) = Ok (map (out 0) (seq 0 (length xs)))) /\
    (forall a m, connected ops a m -> fed (blocks ops) (connected ops) a -> exists b, nth_error bs m = Some b /\
       outputs (run_res (cycle (b_prime U up) (b_process U uo)) b (map (fun k => [out a k]) (seq 0 (length xs)))) = Ok (map (out m) (seq 0 (length xs)))).
Proof. exact tree_flow. Qed.
Example C106_ex_one_input : one_input (connected fork_ops) /\
  shown (run_res (cs_step f32 dbl_prime dbl_process) (cs_new f32 (dbl_heap 2) (dZ 3) (dZ 5)) (fork_ops ++ [CProcess (fZ 1); CProcess (fZ 2)]))
  = vals (map (fun _ => None) fork_ops ++ [Some 30; Some 60])%Z.
Proof. split; [destruct (C66_ex (dZ 1) (dZ 1)) as (s & _ & H & _); exact H|vm_compute; reflexivity]. Qed.
(** any number of parallel branches of one block each: every branch is fed the input times the input gain, and the sound
    puts out the sum of the branches, each sample in the call it belongs to, times the output gain *)
Theorem C106_parallel_branches : forall (U : Type) (up : U -> f32 -> U) (uo : U -> res (f32 * U)) (h : heap U) (gi go : f64) (pre : list cop) (e : cop)
    (s : complex) (hp : heap U) (us : list (block U)) (xs ys : list f32) (hp' : heap U), let ops := pre ++ [e] in
  reaches_state U up uo h gi go ops s -> edits_order e = true ->
  (forall a b, connected ops a b <-> (a = 0 /\ 2 <= b < blocks ops) \/ (b = 1 /\ 2 <= a < blocks ops)) ->
  cs_paused s = false -> cs_muted s = false -> NoDup (node_handles h ops) ->
  map (get_mut U hp) (node_handles h ops) = map Some (Gainer U (gain_block (to32 gi)) :: Gainer U (gain_block (to32 go)) :: us) -> xs <> [] ->
  run_res (cs_process U up uo s) hp xs = Ok (ys, hp') ->
  exists (M : list nat) (out : nat -> nat -> f32), Permutation M (seq 0 (length us)) /\
    (forall i b, nth_error us i = Some b ->
       outputs (run_res (cycle (b_prime U up) (b_process U uo)) b (map (fun x => [fmul (fadd f0 x) (to32 gi)]) xs)) = Ok (map (out i) (seq 0 (length xs)))) /\
    ys = map (fun k => fmul (sum_in (map (fun i => out i k) M)) (to32 go)) (seq 0 (length xs)).
Proof. exact parallel_flow. Qed.
Definition rack_ops : list cop := map CAddBlock [0; 1; 2] ++ [CConnect 0 2; CConnect 2 1; CConnect 4 1; CConnect 0 4; CConnect 3 1; CConnect 0 3].
Example C106_ex_parallel : (forall a b, connected rack_ops a b <-> (a = 0 /\ 2 <= b < blocks rack_ops) \/ (b = 1 /\ 2 <= a < blocks rack_ops)) /\
  shown (run_res (cs_step f32 dbl_prime dbl_process) (cs_new f32 (dbl_heap 3) (dZ 3) (dZ 5)) (rack_ops ++ [CProcess (fZ 1); CProcess (fZ 2)]))
  = vals (map (fun _ => None) rack_ops ++ [Some 90; Some 180])%Z.
Proof.
  split; [|vm_compute; reflexivity]. intros a b. split.
  - intro H. apply connected_In in H. cbn in H. repeat (destruct H as [H|H]; [try discriminate; injection H as <- <-; cbn; lia|]). destruct H.
  - intro H. apply connected_by.
    + cbn in H |- *. destruct H as [[-> H]|[-> H]]; [destruct b as [|[|[|[|[|b]]]]]|destruct a as [|[|[|[|[|a]]]]]]; try lia; tauto.
    + cbn. intro D. repeat (destruct D as [D|D]; [discriminate|]). destruct D.
Qed.
(** longer branches that meet only at the output: one of them may be cut - the last block of the long branch is dropped,
    and the sound puts out the short branches alone *)
Definition branches_pre : list cop :=
  map CAddBlock [0; 1; 2; 3; 4; 5] ++ [CConnect 0 2; CConnect 2 1; CConnect 0 3; CConnect 3 1; CConnect 0 4; CConnect 4 5; CConnect 5 6; CConnect 6 7].
Definition branches_ops : list cop := branches_pre ++ [CConnect 7 1].
Theorem C106_branches_reach_output_refuted : forall (U : Type) (up : U -> f32 -> U) (uo : U -> res (f32 * U)) (h : heap U) (gi go : f64),
  exists s, reaches_state U up uo h gi go branches_ops s /\ acyclic (connected branches_ops) /\
    (forall a a' b, b <> 1 -> connected branches_ops a b -> connected branches_ops a' b -> a = a') /\
    source (blocks branches_ops) (connected branches_ops) 0 /\ leads (connected branches_ops) 0 7 /\ connected branches_ops 7 1 /\ ~ In 7 (cs_order s).
Proof.
  intros. eexists. split; [do 2 eexists; cbv -[gain_block to32 dbl_prime dbl_process b_process b_prime fadd fmul f0]; reflexivity|].
  assert (K : forall a b, In (CConnect a b) branches_ops -> connected branches_ops a b).
  { intros a b H. apply connected_by; [exact H|]. cbn. intro D. repeat (destruct D as [D|D]; [discriminate|]). destruct D. }
  split; [|split; [|split; [|split; [|split]]]].
  - exists (fun x => if x =? 1 then 9 else x). intros a b H. apply connected_In in H. cbn in H.
    repeat (destruct H as [H|H]; [first [discriminate | injection H as <- <-; cbn; lia]|]). destruct H.
  - intros a a' b Nb H1 H2. apply connected_In in H1, H2. cbn in H1, H2.
    repeat (destruct H1 as [H1|H1]; [try discriminate; injection H1 as <- <-; try lia; repeat (destruct H2 as [H2|H2]; [try discriminate; injection H2 as <-; reflexivity|]); destruct H2|]). destruct H1.
  - split; [cbn; lia|]. intros a H. apply connected_In in H. cbn in H. repeat (destruct H as [H|H]; [discriminate|]). destruct H.
  - apply (leads_step _ 0 6 7); [|apply K; cbn; tauto]. apply (leads_step _ 0 5 6); [|apply K; cbn; tauto]. apply (leads_step _ 0 4 5); [|apply K; cbn; tauto].
    apply (leads_step _ 0 0 4); [constructor|apply K; cbn; tauto].
  - apply K. cbn. tauto.
  - vm_compute. intro H. repeat (destruct H as [H|H]; [discriminate|]). destruct H.
Qed.
Example C106_ex_cut : shown (run_res (cs_step f32 dbl_prime dbl_process) (cs_new f32 (dbl_heap 6) (dZ 1) (dZ 1)) (branches_ops ++ [CProcess (fZ 1); CProcess (fZ 1)]))
  = vals (map (fun _ => None) branches_ops ++ [Some 4; Some 4])%Z.
Proof. vm_compute. reflexivity. Qed.
