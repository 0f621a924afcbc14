(** * C59-C70: blocks, SimpleSound, ComplexSound *)

From Coq Require Import ZArith List Bool Lia Arith.
From Flocq Require Import IEEE754.BinarySingleNaN.
From Verif Require Import Model.Floats Model.Generators Model.Modifiers Model.Sounds Spec.SoundSpec Proof.OrderP
  Proof.SoundsP Proof.SoundsP2 Proof.SoundsP3.
Import ListNotations.
Local Open Scope nat_scope.

(** a concrete user block for the examples: sums its inputs, outputs twice the sum *)
Definition fZ (z : Z) : f32 := of_Z z.
Definition dZ (z : Z) : f64 := of_Z z.
Definition dbl_prime (u x : f32) : f32 := fadd u x.
Definition dbl_process (u : f32) : res (f32 * f32) := Ok (fadd u u, f0).
Definition dbl_heap (n : nat) : heap f32 := repeat (mkCell f32 1 (User f32 f0)) n.
Definition sf (x : option f32) : option SpecFloat.spec_float := option_map B2SF x.
Definition shown {S} (r : res (list (option f32) * S)) : option (list (option SpecFloat.spec_float)) :=
  match r with Ok (ys, _) => Some (map sf ys) | Panic => None end.
Definition vals (l : list (option Z)) : option (list (option SpecFloat.spec_float)) := Some (map (fun o => option_map (fun z => B2SF (fZ z)) o) l).

(** ** C59 *)
(** for any generator, modifier and interactor and any history, the block behaves as the specification
    that keeps the list of inputs primed since the last process *)
Theorem C59_block_history : forall (G M I : Type) (gp : G -> res (f32 * G)) (mp : M -> f32 -> res (f32 * M))
    (ip : I -> f32 -> f32 -> res (f32 * I)) (g : G) (m : M) (i : I) (ops : list bop),
  outputs (run_res (block_step gp mp ip) (sb_new g m i 1) ops) =
  outputs (run_res (bspec_step gp mp ip) (mkBS g m i [] 0 0 0) ops).
Proof.
  intros. change (sb_new g m i 1) with (babs G M I (mkBS g m i [] 0 0 0)). rewrite block_history.
  destruct (run_res (bspec_step gp mp ip) (mkBS g m i [] 0 0 0) ops) as [[ys s]|]; reflexivity.
Qed.
Theorem C59_block_panics_iff_shared : forall (G M I : Type) (gp : G -> res (f32 * G)) (mp : M -> f32 -> res (f32 * M))
    (ip : I -> f32 -> f32 -> res (f32 * I)),
  (forall g, gp g <> Panic) -> (forall m x, mp m x <> Panic) -> (forall i a b, ip i a b <> Panic) ->
  forall b : stdblock G M I, sb_process gp mp ip b = Panic <-> sb_gc b <> 1%Z \/ sb_mc b <> 1%Z \/ sb_ic b <> 1%Z.
Proof. exact block_panics. Qed.
Example C59_ex :
  let step := block_step (fun u => Ok (zero_process u)) (fun a x => Ok (gain_process a x)) modifier_passthrough in
  shown (run_res step (from_modifier (fZ 10)) [BPrime (fZ 1); BPrime (fZ 2); BProcess; BProcess; BPrime (fZ 5); BShare PartM; BUnshare PartM; BProcess])
    = vals [None; None; Some 30; Some 0; None; None; None; Some 50]%Z
  /\ shown (run_res step (from_modifier (fZ 10)) [BShare PartM; BProcess]) = None.
Proof. split; vm_compute; reflexivity. Qed.

(** ** C60 *)
Theorem C60_simple_sound_is_series : forall (U : Type) (up : U -> f32 -> U) (uo : U -> res (f32 * U)) (s : simple),
  ss_paused s = false -> ss_muted s = false -> forall (xs : list f32) (h : heap U), counted U h (ss_handles s) ->
  outputs (run_res (ss_process U up uo s) h xs) =
  outputs (run_res (simple_spec (b_prime U up) (b_process U uo) (ss_in s) (ss_out s)) (ss_view U s h) xs).
Proof. exact simple_series_history. Qed.
(** one call: every unshared block is replaced by its own next state, nothing else in memory changes *)
Theorem C60_simple_sound_step : forall (U : Type) (up : U -> f32 -> U) (uo : U -> res (f32 * U)) (s : simple) (h : heap U) (x : f32),
  counted U h (ss_handles s) -> ss_paused s = false -> ss_muted s = false ->
  match ss_process U up uo s h x, simple_spec (b_prime U up) (b_process U uo) (ss_in s) (ss_out s) (ss_view U s h) x with
  | Ok (y, h'), Ok (z, v) => y = z /\ ss_view U s h' = v /\ (forall p, count U h' p = count U h p) /\
                             (forall p, ~ In p (ss_handles s) -> nth_error h' p = nth_error h p)
  | Panic, Panic => True
  | _, _ => False
  end.
Proof. exact simple_series. Qed.
(** with nothing shared it is the plain series composition *)
Theorem C60_unshared_series : forall (U : Type) (up : U -> f32 -> U) (uo : U -> res (f32 * U)) (gi go : f32) (b : block U) (bs : list (block U)) (x : f32),
  simple_spec (b_prime U up) (b_process U uo) gi go (Some b, map Some bs) x =
  do (y, l) <- series (b_prime U up) (b_process U uo) (b :: bs) (fmul x gi); Ok (fmul y go, (hd_error l, map Some (tl l))).
Proof. exact simple_all. Qed.
(** a new sound with modifiers added one by one or in bulk: the generator, then the modifiers in the order they were handed over *)
Theorem C60_built_sound : forall (gi go : f64) (g : handle) (calls : list madd),
  let s := fold_left madd_step calls (ss_new gi go g) in
  ss_handles s = g :: added calls /\ ss_in s = to32 gi /\ ss_out s = to32 go /\ ss_id s = None /\ ss_paused s = false /\ ss_muted s = false.
Proof. intros gi go g calls s. subst s. rewrite built_new. repeat split. Qed.
Theorem C60_built_sound_is_series : forall (U : Type) (up : U -> f32 -> U) (uo : U -> res (f32 * U)) (gi go : f64) (g : handle)
    (calls : list madd) (h : heap U) (b : block U) (bs : list (block U)) (xs : list f32),
  NoDup (g :: added calls) -> map (get_mut U h) (g :: added calls) = map Some (b :: bs) ->
  outputs (run_res (ss_process U up uo (fold_left madd_step calls (ss_new gi go g))) h xs) =
  outputs (run_res (scaled_series (b_prime U up) (b_process U uo) (to32 gi) (to32 go)) (b :: bs) xs).
Proof. exact built_series. Qed.
Example C60_built_ex : let calls := [AddOne 1; AddAll [4; 2]; AddOne 3] in added calls = [1; 4; 2; 3] /\ NoDup (0 :: added calls) /\
  map (get_mut f32 (dbl_heap 5)) (0 :: added calls) = map Some (repeat (User f32 f0) 5).
Proof. split; [reflexivity|]. split; [|reflexivity]. cbn. repeat constructor; cbn; lia. Qed.
Definition demo_simple : simple := ss_extend_modifiers (ss_new (dZ 3) (dZ 5) 0) [1; 2].
Example C60_ex : counted f32 (dbl_heap 3) (ss_handles demo_simple)
  /\ shown (run_res (ss_step f32 dbl_prime dbl_process) (demo_simple, dbl_heap 3) [SProcess (fZ 1); SProcess (fZ 2); SShare 1; SProcess (fZ 1); SShare 0; SProcess (fZ 1)])
     = vals [Some 120; Some 240; None; Some 60; None; Some 0]%Z.
Proof.
  split; [|vm_compute; reflexivity]. intros p Hp. cbn in Hp. destruct Hp as [<-|[<-|[<-|[]]]]; vm_compute; discriminate.
Qed.

(** ** C61 *)
Theorem C61_simple_pause : forall (U : Type) (up : U -> f32 -> U) (uo : U -> res (f32 * U)) (ops : list sop) (st : simple * heap U),
  run_res (ss_step U up uo) st ops =
  do (ys, st') <- run_res (ss_step U up uo) st (unpaused sop_kind (ss_paused (fst st)) ops);
  Ok (with_paused sop_kind (ss_paused (fst st)) ops ys, st').
Proof. exact ss_pause_history. Qed.
Theorem C61_complex_pause : forall (U : Type) (up : U -> f32 -> U) (uo : U -> res (f32 * U)) (ops : list cop) (st : complex * heap U),
  run_res (cs_step U up uo) st ops =
  do (ys, st') <- run_res (cs_step U up uo) st (unpaused cop_kind (cs_paused (fst st)) ops);
  Ok (with_paused cop_kind (cs_paused (fst st)) ops ys, st').
Proof. exact cs_pause_history. Qed.
Example C61_ex :
  let ops := [SProcess (fZ 1); SPause; SProcess (fZ 7); SSetIn (dZ 1); SProcess (fZ 8); SPause; SProcess (fZ 2)] in
  unpaused sop_kind false ops = [SProcess (fZ 1); SPause; SSetIn (dZ 1); SPause; SProcess (fZ 2)]
  /\ shown (run_res (ss_step f32 dbl_prime dbl_process) (demo_simple, dbl_heap 3) ops) = vals [Some 120; None; Some 0; None; Some 0; None; Some 80]%Z.
Proof. split; [reflexivity|vm_compute; reflexivity]. Qed.

(** ** C62 *)
Theorem C62_simple_mute : forall (U : Type) (up : U -> f32 -> U) (uo : U -> res (f32 * U)) (ops : list sop) (s : simple) (h : heap U),
  run_res (ss_step U up uo) (s, h) ops =
  do (ys, st') <- run_res (ss_step U up uo) (ss_set_mute false s, h) (unmuted sop_kind ops);
  Ok (with_mutes sop_kind (ss_muted s) ops ys, (ss_set_mute (flag_after sop_kind KMute (ss_muted s) ops) (fst st'), snd st')).
Proof. exact ss_mute_history. Qed.
Theorem C62_complex_mute : forall (U : Type) (up : U -> f32 -> U) (uo : U -> res (f32 * U)) (ops : list cop) (s : complex) (h : heap U),
  run_res (cs_step U up uo) (s, h) ops =
  do (ys, st') <- run_res (cs_step U up uo) (cs_set_mute false s, h) (unmuted cop_kind ops);
  Ok (with_mutes cop_kind (cs_muted s) ops ys, (cs_set_mute (flag_after cop_kind KMute (cs_muted s) ops) (fst st'), snd st')).
Proof. exact cs_mute_history. Qed.
Example C62_ex :
  let ops := [CConnect 0 1; CProcess (fZ 1); CMute; CProcess (fZ 7); CMute; CProcess (fZ 2)] in
  shown (run_res (cs_step f32 dbl_prime dbl_process) (cs_new f32 [] (dZ 3) (dZ 5)) ops) = vals [None; Some 15; None; Some 0; None; Some 30]%Z
  /\ shown (run_res (cs_step f32 dbl_prime dbl_process) (cs_new f32 [] (dZ 3) (dZ 5)) (unmuted cop_kind ops)) = vals [None; Some 15; Some 105; Some 30]%Z.
Proof. split; vm_compute; reflexivity. Qed.

(** ** C63 *)
Theorem C63_simple_id : forall (U : Type) (up : U -> f32 -> U) (uo : U -> res (f32 * U)) (ops : list sop) (st : simple * heap U) ys st',
  run_res (ss_step U up uo) st ops = Ok (ys, st') ->
  (existsb sop_id ops = false -> ss_id (fst st') = ss_id (fst st)) /\
  (forall l1 o l2, ops = l1 ++ o :: l2 -> existsb sop_id l2 = false ->
     match o with SRegister id => ss_id (fst st') = Some id | SUnregister => ss_id (fst st') = None | _ => True end).
Proof. exact ss_id_history. Qed.
Theorem C63_complex_id : forall (U : Type) (up : U -> f32 -> U) (uo : U -> res (f32 * U)) (ops : list cop) (st : complex * heap U) ys st',
  run_res (cs_step U up uo) st ops = Ok (ys, st') ->
  (existsb cop_id ops = false -> cs_id (fst st') = cs_id (fst st)) /\
  (forall l1 o l2, ops = l1 ++ o :: l2 -> existsb cop_id l2 = false ->
     match o with CRegister id => cs_id (fst st') = Some id | CUnregister => cs_id (fst st') = None | _ => True end).
Proof. exact cs_id_history. Qed.
(** the switches count their toggles, whatever else happens in between *)
Theorem C63_simple_switches : forall (U : Type) (up : U -> f32 -> U) (uo : U -> res (f32 * U)) (ops : list sop) (st : simple * heap U) ys st',
  run_res (ss_step U up uo) st ops = Ok (ys, st') ->
  ss_paused (fst st') = flag_after sop_kind KPause (ss_paused (fst st)) ops /\ ss_muted (fst st') = flag_after sop_kind KMute (ss_muted (fst st)) ops.
Proof. exact ss_flags. Qed.
Theorem C63_complex_switches : forall (U : Type) (up : U -> f32 -> U) (uo : U -> res (f32 * U)) (ops : list cop) (st : complex * heap U) ys st',
  run_res (cs_step U up uo) st ops = Ok (ys, st') ->
  cs_paused (fst st') = flag_after cop_kind KPause (cs_paused (fst st)) ops /\ cs_muted (fst st') = flag_after cop_kind KMute (cs_muted (fst st)) ops.
Proof. exact cs_flags. Qed.
Theorem C63_toggles_involutive : forall (s : simple) (c : complex),
  ss_toggle_pause (ss_toggle_pause s) = s /\ ss_toggle_mute (ss_toggle_mute s) = s /\
  cs_toggle_pause (cs_toggle_pause c) = c /\ cs_toggle_mute (cs_toggle_mute c) = c.
Proof. intros [? ? ? ? ? m p] [? ? ? ? ? m' p']. destruct m, p, m', p'; repeat split. Qed.
Theorem C63_gain_accessors : forall (s : simple) (g : f64),
  ss_get_input_gain (ss_set_input_gain s g) = to64 (to32 g) /\ ss_get_output_gain (ss_set_output_gain s g) = to64 (to32 g) /\
  ss_get_output_gain (ss_set_input_gain s g) = ss_get_output_gain s /\ ss_get_input_gain (ss_set_output_gain s g) = ss_get_input_gain s.
Proof. intros s g. repeat split. Qed.
Example C63_ex : exists ys st, run_res (ss_step f32 dbl_prime dbl_process) (demo_simple, dbl_heap 3) [SRegister 7; SMute; SRegister 9; SPause; SMute] = Ok (ys, st)
  /\ ss_id (fst st) = Some 9%Z /\ ss_paused (fst st) = true /\ ss_muted (fst st) = false.
Proof. do 2 eexists. split; [reflexivity|]. repeat split. Qed.

(** ** C64 *)
(** while a clone is alive, both sounds (they are the same value, sharing the same blocks) are silent
    and no block advances; dropping the clone restores the memory exactly *)
Theorem C64_simple_clone_silent : forall (U : Type) (up : U -> f32 -> U) (uo : U -> res (f32 * U)) (s : simple) (h : heap U),
  counted U h (ss_handles s) ->
  let '(s', h') := ss_clone U s h in
  s' = s /\ ss_drop U s' h' = h /\
  forall x, ss_process U up uo s h' x = Ok (if ss_paused s || ss_muted s then f0 else fmul f0 (ss_out s), h').
Proof. exact simple_clone. Qed.
Theorem C64_complex_clone_panics : forall (U : Type) (up : U -> f32 -> U) (uo : U -> res (f32 * U)) (s : complex) (h : heap U) (p : handle),
  counted U h (g_nodes (cs_graph s)) -> nth_error (g_nodes (cs_graph s)) (cs_ig s) = Some p ->
  let '(s', h') := cs_clone U s h in
  s' = s /\ cs_drop U s' h' = h /\
  forall x, cs_process U up uo s h' x = if cs_paused s then Ok (f0, h') else Panic.
Proof. exact complex_clone. Qed.
(** the natural expectation fails: a sound that plays 120 plays 0 once cloned *)
Theorem C64_clone_plays_like_original_refuted : ~ forall (s : simple) (h : heap f32), counted f32 h (ss_handles s) ->
  let '(s', h') := ss_clone f32 s h in
  forall x, outputs (run_res (ss_process f32 dbl_prime dbl_process s') h' [x]) = outputs (run_res (ss_process f32 dbl_prime dbl_process s) h [x]).
Proof.
  intro H. specialize (H demo_simple (dbl_heap 3)). unfold ss_clone in H.
  assert (C : counted f32 (dbl_heap 3) (ss_handles demo_simple)) by apply C60_ex.
  specialize (H C (fZ 1)). apply (f_equal (fun r => match r with Ok [y] => B2SF y | _ => SpecFloat.S754_nan end)) in H. vm_compute in H. discriminate.
Qed.
Example C64_ex : counted f32 (snd (cs_new f32 [] (dZ 3) (dZ 5))) (g_nodes (cs_graph (fst (cs_new f32 [] (dZ 3) (dZ 5))))).
Proof. intros p Hp. cbn in Hp. destruct Hp as [<-|[<-|[]]]; vm_compute; discriminate. Qed.

(** ** C65 *)
(** [reaches_state U up uo h gi go ops s]: the history [ops], starting from ComplexSound::new, ends in [s] *)
Theorem C65_order_well_formed : forall (U : Type) (up : U -> f32 -> U) (uo : U -> res (f32 * U)) (h : heap U) (gi go : f64)
    (pre : list cop) (e : cop) (s : complex),
  reaches_state U up uo h gi go (pre ++ [e]) s -> edits_order e = true ->
  let ops := pre ++ [e] in
  exists mid, cs_order s = 0 :: mid ++ [1] /\ NoDup (cs_order s) /\
    forall x, In x mid -> x < blocks ops /\ fed (blocks ops) (connected ops) x.
Proof. exact order_wf. Qed.
(** computing the order always ends; remove_connection never panics, add_connection only for an unknown block *)
Theorem C65_edits_total : forall (U : Type) (up : U -> f32 -> U) (uo : U -> res (f32 * U)) (h : heap U) (gi go : f64)
    (ops : list cop) (s : complex) (a b : nat),
  reaches_state U up uo h gi go ops s ->
  cs_remove_connection s a b <> Panic /\
  (cs_add_connection s a b = Panic <-> ~ connected ops a b /\ ~ (a < blocks ops /\ b < blocks ops)).
Proof. exact edits_total. Qed.
(** anything that is not a connection change keeps the order *)
Theorem C65_order_kept : forall (U : Type) (up : U -> f32 -> U) (uo : U -> res (f32 * U)) (h : heap U) (gi go : f64)
    (ops : list cop) (o : cop) (s : complex) (h1 : heap U) y s' h',
  reaches_state U up uo h gi go ops s -> edits_order o = false -> cs_step U up uo (s, h1) o = Ok (y, (s', h')) -> cs_order s' = cs_order s.
Proof. exact order_kept. Qed.
(** a cycle with a self-loop and a removed connection *)
Definition cyclic_ops : list cop :=
  [CAddBlock 0; CAddBlock 1; CConnect 0 2; CConnect 2 3; CConnect 3 2; CConnect 3 3; CConnect 0 1; CConnect 3 1; CDisconnect 0 1].
Example C65_ex : forall gi go, exists s, reaches_state f32 dbl_prime dbl_process [] gi go cyclic_ops s /\ cs_order s = [0; 2; 3; 1].
Proof. intros. eexists. split; [do 2 eexists; cbv -[gain_block to32 dbl_prime dbl_process b_process b_prime fadd fmul f0]; reflexivity|reflexivity]. Qed.

(** ** C66 *)
Theorem C66_complete_when_one_input : forall (U : Type) (up : U -> f32 -> U) (uo : U -> res (f32 * U)) (h : heap U) (gi go : f64)
    (pre : list cop) (e : cop) (s : complex),
  reaches_state U up uo h gi go (pre ++ [e]) s -> edits_order e = true ->
  let ops := pre ++ [e] in one_input (connected ops) -> forall x, fed (blocks ops) (connected ops) x -> In x (cs_order s).
Proof. exact order_complete. Qed.
(** a diamond followed by a chain: block 7, fed by the input gain through an acyclic graph, is dropped *)
Definition diamond_pre : list cop :=
  map CAddBlock [0; 1; 2; 3; 4; 5] ++ [CConnect 0 2; CConnect 0 3; CConnect 2 4; CConnect 3 4; CConnect 4 5; CConnect 5 6; CConnect 6 7].
Definition diamond_ops : list cop := diamond_pre ++ [CConnect 7 1].
Theorem C66_every_fed_block_processed_refuted : forall (U : Type) (up : U -> f32 -> U) (uo : U -> res (f32 * U)) (h : heap U) (gi go : f64),
  exists s, reaches_state U up uo h gi go diamond_ops s /\ acyclic (connected diamond_ops) /\
    source (blocks diamond_ops) (connected diamond_ops) 0 /\ leads (connected diamond_ops) 0 7 /\ ~ In 7 (cs_order s).
Proof.
  intros. eexists. split; [do 2 eexists; cbv -[gain_block to32 dbl_prime dbl_process b_process b_prime fadd fmul f0]; reflexivity|]. split; [|split; [|split]].
  - exists (fun x => if x =? 1 then 9 else x). intros a b H. apply connected_In in H. cbn in H.
    repeat (destruct H as [H|H]; [first [discriminate | injection H as <- <-; cbn; lia]|]). destruct H.
  - split; [cbn; lia|]. intros a H. apply connected_In in H. cbn in H. repeat (destruct H as [H|H]; [discriminate|]). destruct H.
  - assert (K : forall a b, In (CConnect a b) diamond_ops -> connected diamond_ops a b).
    { intros a b H. apply connected_by; [exact H|]. cbn. intro D. repeat (destruct D as [D|D]; [discriminate|]). destruct D. }
    apply (leads_step _ 0 6 7); [|apply K; cbn; tauto]. apply (leads_step _ 0 5 6); [|apply K; cbn; tauto]. apply (leads_step _ 0 4 5); [|apply K; cbn; tauto].
    apply (leads_step _ 0 2 4); [|apply K; cbn; tauto]. apply (leads_step _ 0 0 2); [constructor|apply K; cbn; tauto].
  - vm_compute. intro H. repeat (destruct H as [H|H]; [discriminate|]). destruct H.
Qed.
(** ... so the sound is silent although every block doubles its input *)
Example C66_ex_silent : shown (run_res (cs_step f32 dbl_prime dbl_process) (cs_new f32 (dbl_heap 6) (dZ 1) (dZ 1)) (diamond_ops ++ [CProcess (fZ 1); CProcess (fZ 1)]))
  = vals (map (fun _ => None) diamond_ops ++ [Some 0; Some 0])%Z.
Proof. vm_compute. reflexivity. Qed.
(** a graph meeting the hypotheses of the positive theorem: a fork *)
Definition fork_ops : list cop := map CAddBlock [0; 1] ++ [CConnect 0 2; CConnect 0 3; CConnect 3 1].
Example C66_ex : forall gi go, exists s, reaches_state f32 dbl_prime dbl_process (dbl_heap 2) gi go fork_ops s /\ one_input (connected fork_ops) /\ cs_order s = [0; 3; 2; 1].
Proof.
  intros. eexists. split; [do 2 eexists; cbv -[gain_block to32 dbl_prime dbl_process b_process b_prime fadd fmul f0]; reflexivity|]. split; [|reflexivity]. intros a a' b H1 H2. apply connected_In in H1, H2. cbn in H1, H2.
  repeat (destruct H1 as [H1|H1]; [try discriminate; injection H1 as <- <-; repeat (destruct H2 as [H2|H2]; [try discriminate; injection H2 as <-; reflexivity|]); destruct H2|]).
  destruct H1.
Qed.

(** ** C67 *)
Theorem C67_topological_when_one_input : forall (U : Type) (up : U -> f32 -> U) (uo : U -> res (f32 * U)) (h : heap U) (gi go : f64)
    (pre : list cop) (e : cop) (s : complex),
  reaches_state U up uo h gi go (pre ++ [e]) s -> edits_order e = true ->
  let ops := pre ++ [e] in one_input (connected ops) ->
  forall a b, connected ops a b -> fed (blocks ops) (connected ops) a -> b <> 0 -> a <> 1 -> precedes (cs_order s) a b.
Proof. exact order_topological. Qed.
(** two paths of different length: block 3 is processed before block 2, which feeds it *)
Definition skew_ops : list cop := map CAddBlock [0; 1] ++ [CConnect 0 2; CConnect 0 3; CConnect 2 3; CConnect 3 1].
Theorem C67_inputs_first_refuted : forall (U : Type) (up : U -> f32 -> U) (uo : U -> res (f32 * U)) (h : heap U) (gi go : f64),
  exists s, reaches_state U up uo h gi go skew_ops s /\ acyclic (connected skew_ops) /\
    fed (blocks skew_ops) (connected skew_ops) 2 /\ connected skew_ops 2 3 /\ ~ precedes (cs_order s) 2 3.
Proof.
  intros. eexists. split; [do 2 eexists; cbv -[gain_block to32 dbl_prime dbl_process b_process b_prime fadd fmul f0]; reflexivity|].
  assert (K : forall a b, In (CConnect a b) skew_ops -> connected skew_ops a b).
  { intros a b H. apply connected_by; [exact H|]. cbn. intro D. repeat (destruct D as [D|D]; [discriminate|]). destruct D. }
  split; [|split; [|split]].
  - exists (fun x => if x =? 1 then 9 else x). intros a b H. apply connected_In in H. cbn in H.
    repeat (destruct H as [H|H]; [first [discriminate | injection H as <- <-; cbn; lia]|]). destruct H.
  - exists 0. split.
    + split; [cbn; lia|]. intros a H. apply connected_In in H. cbn in H. repeat (destruct H as [H|H]; [discriminate|]). destruct H.
    + apply (leads_step _ 0 0 2); [constructor|apply K; cbn; tauto].
  - apply K. cbn. tauto.
  - change (cs_order _) with [0; 3; 2; 1]. intros (l1 & l2 & l3 & E).
    destruct l1 as [|? [|? [|? [|? [|? ?]]]]]; cbn in E; try discriminate. injection E as _ _ E.
    destruct l2 as [|? [|? ?]]; discriminate.
Qed.
(** ... and its contribution arrives one call late: 2 + 4 per call once running, 2 at first *)
Example C67_ex_late : shown (run_res (cs_step f32 dbl_prime dbl_process) (cs_new f32 (dbl_heap 2) (dZ 1) (dZ 1)) (skew_ops ++ [CProcess (fZ 1); CProcess (fZ 1); CProcess (fZ 1)]))
  = vals (map (fun _ => None) skew_ops ++ [Some 2; Some 6; Some 6])%Z.
Proof. vm_compute. reflexivity. Qed.

(** ** C68 *)
Theorem C68_no_source : forall (U : Type) (up : U -> f32 -> U) (uo : U -> res (f32 * U)) (h : heap U) (gi go : f64)
    (pre : list cop) (e : cop) (s : complex),
  reaches_state U up uo h gi go (pre ++ [e]) s -> edits_order e = true ->
  let ops := pre ++ [e] in (forall x, x < blocks ops -> exists a, connected ops a x) -> cs_order s = [0; 1].
Proof. exact order_no_source. Qed.
Definition feedback_ops : list cop := [CAddBlock 0; CConnect 0 2; CConnect 2 1; CConnect 2 0].
Example C68_ex : (forall x, x < blocks feedback_ops -> exists a, connected feedback_ops a x)
  /\ shown (run_res (cs_step f32 dbl_prime dbl_process) (cs_new f32 (dbl_heap 1) (dZ 1) (dZ 1)) (feedback_ops ++ [CProcess (fZ 1); CProcess (fZ 1)]))
     = vals [None; None; None; None; Some 0; Some 0]%Z.
Proof.
  split; [|vm_compute; reflexivity]. assert (K : forall a b, In (CConnect a b) feedback_ops -> connected feedback_ops a b).
  { intros a b H. apply connected_by; [exact H|]. cbn. intro D. repeat (destruct D as [D|D]; [discriminate|]). destruct D. }
  intros x Hx. cbn in Hx. destruct x as [|[|[|x]]]; [exists 2|exists 2|exists 0|lia]; apply K; cbn; tauto.
Qed.

(** ** C69 *)
Theorem C69_unconnected_accumulates : forall (U : Type) (up : U -> f32 -> U) (uo : U -> res (f32 * U)) (gi go : f64) (h : heap U) (xs : list f32) (x : f32),
  exists st, run_res (cs_step U up uo) (cs_new U h gi go) (map CProcess xs ++ [CConnect 0 1; CProcess x]) =
  Ok (map (fun _ => Some f0) xs ++ [None; Some (fmul (fadd f0 (fmul (fold_left fadd (xs ++ [x]) f0) (to32 gi))) (to32 go))], st).
Proof. exact unconnected_then_connected. Qed.
Example C69_ex : shown (run_res (cs_step f32 dbl_prime dbl_process) (cs_new f32 [] (dZ 3) (dZ 5)) (map CProcess [fZ 1; fZ 2; fZ 4] ++ [CConnect 0 1; CProcess (fZ 8)]))
  = vals [Some 0; Some 0; Some 0; None; Some 225]%Z.
Proof. vm_compute. reflexivity. Qed.

(** ** C70 *)
(** [linear_spec gi go bs x]: the series of the blocks on (0+x)*gi, then (0+y)*go *)
Theorem C70_linear_sound : forall (U : Type) (up : U -> f32 -> U) (uo : U -> res (f32 * U)) (ps : list handle) (bs : list (block U)) (h : heap U) (gi go : f64),
  NoDup ps -> held U h ps bs ->
  exists ys0 s, run_res (cs_step U up uo) (cs_new U h gi go) (build_chain ps) = Ok (ys0, (s, snd (cs_new U h gi go))) /\
    cs_order s = path (length ps) /\
    forall xs, outputs (run_res (cs_process U up uo s) (snd (cs_new U h gi go)) xs) =
      outputs (run_res (linear_spec U up uo (to32 gi) (to32 go)) bs xs).
Proof. exact linear_sound. Qed.
(** the same value a SimpleSound over these blocks computes (C60_unshared_series), as long as no negative zero is involved *)
Theorem C70_same_as_simple : forall (U : Type) (up : U -> f32 -> U) (uo : U -> res (f32 * U)) (gi go : f32) (b : block U) (bs : list (block U)) (x : f32),
  B2SF x <> SpecFloat.S754_zero true ->
  (forall y l, series (b_prime U up) (b_process U uo) (b :: bs) (fmul x gi) = Ok (y, l) -> B2SF y <> SpecFloat.S754_zero true) ->
  (do (y, _) <- linear_spec U up uo gi go (b :: bs) x; Ok y) =
  (do (y, _) <- simple_spec (b_prime U up) (b_process U uo) gi go (Some b, map Some bs) x; Ok y).
Proof.
  intros U up uo gi go b bs x Hx Hy. rewrite simple_all. unfold linear_spec. rewrite (fadd_0_l x Hx).
  destruct (series (b_prime U up) (b_process U uo) (b :: bs) (fmul x gi)) as [[y l]|] eqn:E; [|reflexivity]. cbn [bind].
  rewrite (fadd_0_l y (Hy y l eq_refl)). reflexivity.
Qed.
Example C70_ex : NoDup [2; 0; 1] /\ held f32 (dbl_heap 3) [2; 0; 1] [User f32 f0; User f32 f0; User f32 f0]
  /\ build_chain [2; 0; 1] = [CAddBlock 2; CAddBlock 0; CAddBlock 1; CConnect 0 2; CConnect 2 3; CConnect 3 4; CConnect 4 1]
  /\ shown (run_res (cs_step f32 dbl_prime dbl_process) (cs_new f32 (dbl_heap 3) (dZ 3) (dZ 5)) (build_chain [2; 0; 1] ++ [CProcess (fZ 1); CProcess (fZ 2)]))
     = vals [None; None; None; None; None; None; None; Some 120; Some 240]%Z.
Proof.
  split; [repeat constructor; cbn; intuition discriminate|]. split; [reflexivity|]. split; [reflexivity|]. vm_compute. reflexivity.
Qed.
