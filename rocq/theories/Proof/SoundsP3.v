(** * Edit histories of ComplexSound; ids; unconnected and linear sounds *)
From Coq Require Import ZArith List Bool Lia Arith.
From Flocq Require Import IEEE754.BinarySingleNaN.
From Verif Require Import Model.Floats Model.Generators Model.Modifiers Model.Sounds Spec.SoundSpec Proof.GenericP Proof.OrderP Proof.SoundsP Proof.SoundsP2.
Import ListNotations.
Local Open Scope nat_scope.

(** ** the connections, from the history *)
Lemma connected_snoc ops o a b : connected (ops ++ [o]) a b <-> o = CConnect a b \/ (connected ops a b /\ o <> CDisconnect a b).
Proof.
  unfold connected. split.
  - intros (l1 & l2 & E & N). destruct l2 as [|c l2] using rev_ind.
    + apply app_inj_tail in E. left. apply E.
    + clear IHl2. rewrite app_comm_cons, app_assoc in E. apply app_inj_tail in E. destruct E as [-> ->]. right. split.
      * exists l1, l2. split; [reflexivity|]. intro H. apply N. apply in_or_app. auto.
      * intros ->. apply N. apply in_or_app. right. left. reflexivity.
  - intros [->|[(l1 & l2 & -> & N) Ho]].
    + exists ops, []. split; [reflexivity|intros []].
    + exists l1, (l2 ++ [o]). split; [rewrite <- app_assoc; reflexivity|]. intro H. apply in_app_or in H. destruct H as [H|[H|[]]]; [exact (N H)|congruence].
Qed.
Lemma connected_nil a b : ~ connected [] a b.
Proof. intros (l1 & l2 & E & _). destruct l1; discriminate. Qed.
Lemma find_edge_In g a b : g_find_edge g a b = true <-> In (a, b) (g_edges g).
Proof.
  unfold g_find_edge. rewrite existsb_exists. unfold is_edge. split.
  - intros ([c d] & H & K). cbn in K. apply andb_true_iff in K. rewrite !Nat.eqb_eq in K. destruct K as [-> ->]. exact H.
  - intro H. exists (a, b). split; [exact H|]. cbn. rewrite !Nat.eqb_refl. reflexivity.
Qed.
Lemma is_edge_true a b e : is_edge a b e = true <-> e = (a, b).
Proof. destruct e as [c d]. unfold is_edge. cbn. rewrite andb_true_iff, !Nat.eqb_eq. split; [intros [-> ->]; reflexivity|intro E; injection E as -> ->; auto]. Qed.
Lemma remove_first_In a b l e : NoDup l -> (In e (remove_first (is_edge a b) l) <-> In e l /\ e <> (a, b)).
Proof.
  induction 1 as [|x l Nx N IH]; cbn; [tauto|]. destruct (is_edge a b x) eqn:X.
  - apply is_edge_true in X. subst x. split.
    + intro H. split; [auto|]. intros ->. contradiction.
    + intros [[H|H] K]; [congruence|exact H].
  - assert (x <> (a, b)) by (intro; apply is_edge_true in H; congruence). cbn. rewrite IH. split.
    + intros [->|[H1 H2]]; auto.
    + intros [[H1|H1] H2]; auto.
Qed.
Lemma remove_first_NoDup {A} (f : A -> bool) l : NoDup l -> NoDup (remove_first f l).
Proof.
  induction 1 as [|x l Nx N IH]; cbn; [constructor|]. destruct (f x); [exact N|]. constructor; [|exact IH].
  intro H. apply Nx. clear -H. induction l as [|y l IH]; cbn in *; [destruct H|]. destruct (f y); [auto|]. destruct H; auto.
Qed.

Section Sounds.
Variable U : Type. Variable up : U -> f32 -> U. Variable uo : U -> res (f32 * U).
Local Notation heap := (heap U). Local Notation block := (block U).
Local Notation ss_step := (ss_step U up uo). Local Notation cs_step := (cs_step U up uo).
Local Notation bprime := (b_prime U up). Local Notation bproc := (b_process U uo).

Definition ginv (ops : list cop) (s : complex) : Prop :=
  cs_ig s = 0 /\ cs_og s = 1 /\ length (g_nodes (cs_graph s)) = blocks ops /\ gwf (cs_graph s) /\
  NoDup (g_edges (cs_graph s)) /\ (forall a b, In (a, b) (g_edges (cs_graph s)) <-> connected ops a b).
Lemma blocks_snoc ops o : blocks (ops ++ [o]) = match o with CAddBlock _ => S (blocks ops) | _ => blocks ops end.
Proof. unfold blocks. rewrite filter_app, app_length. destruct o; cbn; lia. Qed.
Lemma snoc_run ops o st ys st' : run_res cs_step st (ops ++ [o]) = Ok (ys, st') ->
  exists ys1 st1 y, run_res cs_step st ops = Ok (ys1, st1) /\ cs_step st1 o = Ok (y, st').
Proof.
  intro E. destruct (run_res cs_step st ops) as [[ys1 st1]|] eqn:E1.
  - rewrite (run_res_app _ _ _ _ _ _ E1) in E. cbn in E. destruct (cs_step st1 o) as [[y st2]|] eqn:E2; [|discriminate]. cbn in E.
    injection E as <- <-. eauto 6.
  - exfalso. revert st ys E E1. induction ops as [|o' ops IH]; intros st ys E E1; [discriminate|]. cbn in E, E1.
    destruct (cs_step st o') as [[y st1]|]; [|discriminate]. cbn in E, E1.
    destruct (run_res cs_step st1 (ops ++ [o])) as [[ys2 st2]|] eqn:E2; [|discriminate].
    destruct (run_res cs_step st1 ops) as [[ys3 st3]|] eqn:E3; [discriminate|]. cbn in E. injection E as <- <-. exact (IH _ _ E2 E3).
Qed.
Lemma new_ginv h gi go : ginv [] (fst (cs_new U h gi go)).
Proof.
  unfold ginv. cbn. split; [reflexivity|]. split; [reflexivity|]. split; [reflexivity|]. split; [intros a b []|]. split; [constructor|].
  intros a b. split; [intros []|]. intro H. destruct (connected_nil _ _ H).
Qed.
(** what each connection change does *)
Lemma order_total g : gwf g -> exists o, process_order g 0 1 = Some o.
Proof. intro W. destruct (order_shape g 0 1 W ltac:(lia)) as (mid & E & _). eauto. Qed.
Lemma connect_ok ops s a b : ginv ops s ->
  (cs_add_connection s a b = Panic <-> ~ connected ops a b /\ ~ (a < blocks ops /\ b < blocks ops)) /\
  (forall s', cs_add_connection s a b = Ok s' -> ginv (ops ++ [CConnect a b]) s' /\ process_order (cs_graph s') 0 1 = Some (cs_order s')).
Proof.
  intros (I0 & I1 & L & W & N & C). unfold cs_add_connection, g_update_edge.
  pose proof (proj1 (find_edge_In (cs_graph s) a b)) as F1. pose proof (proj2 (find_edge_In (cs_graph s) a b)) as F2.
  destruct (g_find_edge (cs_graph s) a b).
  - specialize (F1 eq_refl). clear F2. cbn [bind]. destruct (order_total _ W) as [o O]. unfold cs_with_graph. rewrite I0, I1, O. split.
    + split; [discriminate|]. intros [H _]. exfalso. apply H, C, F1.
    + intros s' E. injection E as <-. split; [|exact O]. unfold ginv. cbn [cs_ig cs_og cs_graph]. split; [reflexivity|]. split; [reflexivity|]. split; [|split; [|split]].
      * rewrite blocks_snoc. exact L.
      * intros c d H. apply (W c d H).
      * exact N.
      * intros c d. split; [intros; apply connected_snoc; right; split; [apply C; assumption|discriminate]|].
        intro H. apply connected_snoc in H. destruct H as [H|[H _]]; [injection H as -> ->; exact F1|apply C, H].
  - rewrite L. destruct (Nat.ltb_spec a (blocks ops)) as [La|La], (Nat.ltb_spec b (blocks ops)) as [Lb|Lb]; cbn [andb bind].
    2,3,4: split; [split; [|reflexivity]; intros _; split; [intro H; apply C, F2 in H; discriminate|lia]|discriminate].
    set (g := mkGraph (g_nodes (cs_graph s)) ((a, b) :: g_edges (cs_graph s))).
    assert (W' : gwf g).
    { intros c d [H|H]; cbn; [injection H as <- <-; lia|apply (W c d H)]. }
    destruct (order_total _ W') as [o O]. unfold cs_with_graph. rewrite I0, I1, O. split.
    + split; [discriminate|]. intros [_ H]. lia.
    + intros s' E. injection E as <-. split; [|exact O]. unfold ginv. cbn [cs_ig cs_og cs_graph]. split; [reflexivity|]. split; [reflexivity|]. split; [|split; [|split]].
      * rewrite blocks_snoc. exact L.
      * intros c d H. apply (W' c d H).
      * constructor; [|exact N]. intro H. apply F2 in H. discriminate.
      * intros c d. split; [intros [H|H]; [injection H as -> ->; apply connected_snoc; auto|]; apply connected_snoc; right; split; [apply C; assumption|discriminate]|].
        intro H. apply connected_snoc in H. destruct H as [H|[H _]]; [injection H as -> ->; left; reflexivity|right; apply C, H].
Qed.
Lemma disconnect_ok ops s a b : ginv ops s ->
  exists s', cs_remove_connection s a b = Ok s' /\ ginv (ops ++ [CDisconnect a b]) s' /\ process_order (cs_graph s') 0 1 = Some (cs_order s').
Proof.
  intros (I0 & I1 & L & W & N & C). unfold cs_remove_connection, cs_with_graph.
  assert (W' : gwf (g_remove_edge (cs_graph s) a b)).
  { intros c d H. cbn in *. apply remove_first_In in H; [|exact N]. apply W, H. }
  destruct (order_total _ W') as [o O]. rewrite I0, I1, O. eexists. split; [reflexivity|]. split; [|exact O]. unfold ginv. cbn [cs_ig cs_og cs_graph]. split; [reflexivity|]. split; [reflexivity|]. split; [|split; [|split]].
  - rewrite blocks_snoc. exact L.
  - intros c d H. apply (W' c d H).
  - apply remove_first_NoDup, N.
  - intros c d. split; [intro H; apply remove_first_In in H; [|exact N]; apply connected_snoc; right; split; [apply C, H|]; intro E; injection E as -> ->; apply H; reflexivity|].
    intro H. apply connected_snoc in H. destruct H as [H|[H K]]; [discriminate|]. apply remove_first_In; [exact N|]. split; [apply C, H|congruence].
Qed.
Lemma other_ginv ops s h o y s' h' : ginv ops s -> edits_order o = false -> cs_step (s, h) o = Ok (y, (s', h')) ->
  ginv (ops ++ [o]) s' /\ cs_order s' = cs_order s.
Proof.
  intros (I0 & I1 & L & W & N & C) E H.
  assert (C' : forall a b, connected ops a b <-> connected (ops ++ [o]) a b).
  { intros a b. rewrite connected_snoc. split; [|intros [->|[K _]]; [discriminate|exact K]]. intro K. right. split; [exact K|]. intros ->. discriminate. }
  assert (Q : g_nodes (cs_graph s') = g_nodes (cs_graph s) ++ (match o with CAddBlock p => [p] | _ => [] end) /\ g_edges (cs_graph s') = g_edges (cs_graph s)
    /\ cs_ig s' = cs_ig s /\ cs_og s' = cs_og s /\ cs_order s' = cs_order s).
  { destruct o; try discriminate; cbn in H.
    1:{ destruct (cs_process U up uo s h x) as [[z h2]|]; [|discriminate]. cbn in H. injection H as <- <- <-. rewrite app_nil_r. auto. }
    all: injection H as <- <- <-; cbn; rewrite ?app_nil_r; auto. }
  destruct Q as (Q1 & Q2 & Q3 & Q4 & Q5). split; [|exact Q5].
  assert (L' : length (g_nodes (cs_graph s')) = blocks (ops ++ [o])).
  { rewrite Q1, blocks_snoc, app_length, L. destruct o; cbn; lia. }
  split; [congruence|]. split; [congruence|]. split; [exact L'|]. split; [|split; [rewrite Q2; exact N|]].
  - intros a b Hab. rewrite Q2 in Hab. apply W in Hab. rewrite Q1, app_length. lia.
  - intros a b. rewrite Q2, <- C'. apply C.
Qed.
Lemma history_ginv h gi go ops : forall ys s h', run_res cs_step (cs_new U h gi go) ops = Ok (ys, (s, h')) ->
  ginv ops s /\ (forall pre e, ops = pre ++ [e] -> edits_order e = true -> process_order (cs_graph s) 0 1 = Some (cs_order s)).
Proof.
  induction ops as [|o ops IH] using rev_ind; intros ys s h' E.
  - assert (K : s = fst (cs_new U h gi go)) by (cbn in E; injection E; intros; subst; reflexivity). rewrite K. split; [apply new_ginv|].
    intros [|] e H; discriminate.
  - apply snoc_run in E. destruct E as (ys1 & [s1 h1] & y & E1 & E2). destruct (IH _ _ _ E1) as [G _].
    destruct (edits_order o) eqn:Eo.
    + destruct o; try discriminate; cbn in E2.
      * destruct (cs_add_connection s1 a b) as [s2|] eqn:A; [|discriminate]. cbn in E2. injection E2 as <- <- <-.
        destruct (proj2 (connect_ok ops s1 a b G) s2 A) as [G2 O]. split; [exact G2|]. intros; exact O.
      * destruct (disconnect_ok ops s1 a b G) as (s2 & A & G2 & O). rewrite A in E2. cbn in E2. injection E2 as <- <- <-. split; [exact G2|]. intros; exact O.
    + split; [apply (other_ginv _ _ _ _ _ _ _ G Eo E2)|]. intros pre e H He. apply app_inj_tail in H. destruct H as [_ ->]. congruence.
Qed.
Lemma fed_sourced ops s x : ginv ops s -> (sourced (cs_graph s) x <-> fed (blocks ops) (connected ops) x).
Proof.
  intros (I0 & I1 & L & W & N & C). unfold sourced, fed, source.
  assert (R : forall a b, reach (cs_graph s) a b <-> leads (connected ops) a b).
  { intros a b. split; induction 1; try constructor; econstructor; eauto; apply C; assumption. }
  split; intros (z & Hz & K); exists z.
  - apply externals_In in Hz. rewrite L in Hz. split; [|apply R, K]. split; [apply Hz|]. intros a Ha. apply (proj2 Hz a), C, Ha.
  - split; [|apply R, K]. apply externals_In. rewrite L. split; [apply Hz|]. intros a Ha. apply (proj2 Hz a), C, Ha.
Qed.
Lemma one_input_tree ops s : ginv ops s -> one_input (connected ops) -> tree_like (cs_graph s).
Proof.
  intros (I0 & I1 & L & W & N & C) T. unfold tree_like.
  assert (K : forall a a' b, In (a, b) (g_edges (cs_graph s)) -> In (a', b) (g_edges (cs_graph s)) -> a = a') by (intros a a' b H1 H2; apply (T a a' b); apply C; assumption).
  clear -N K. induction (g_edges (cs_graph s)) as [|[a b] l IH]; [constructor|]. cbn. inversion N as [|? ? N1 N2]; subst. constructor.
  - intro H. apply in_map_iff in H. destruct H as ((a', b') & E & H). cbn in E. subst b'. assert (a = a') by (apply (K a a' b); [left; reflexivity|right; exact H]). subst. contradiction.
  - apply IH; [exact N2|]. intros. eapply K; right; eassumption.
Qed.

(** *** C65 - C68 *)
Definition reaches_state (h : heap) (gi go : f64) (ops : list cop) (s : complex) : Prop :=
  exists ys h', run_res cs_step (cs_new U h gi go) ops = Ok (ys, (s, h')).
Lemma order_wf h gi go pre e s : reaches_state h gi go (pre ++ [e]) s -> edits_order e = true ->
  let ops := pre ++ [e] in
  exists mid, cs_order s = 0 :: mid ++ [1] /\ NoDup (cs_order s) /\
    forall x, In x mid -> x < blocks ops /\ fed (blocks ops) (connected ops) x.
Proof.
  intros (ys & h' & E) He. cbn zeta. destruct (history_ginv _ _ _ _ _ _ _ E) as [G O]. specialize (O _ _ eq_refl He).
  pose proof G as (I0 & I1 & L & W & N & C).
  destruct (order_shape (cs_graph s) 0 1 W ltac:(lia)) as (mid & P & ND & K). rewrite P in O. injection O as O. exists mid.
  rewrite <- O. split; [reflexivity|]. split; [exact ND|]. intros x Hx. destruct (K x Hx) as (K1 & K2 & _). split; [lia|]. apply (fed_sourced _ _ _ G), K2.
Qed.
Lemma order_kept h gi go ops o s h1 y s' h' : reaches_state h gi go ops s -> edits_order o = false ->
  cs_step (s, h1) o = Ok (y, (s', h')) -> cs_order s' = cs_order s.
Proof. intros (ys & h2 & E) Eo K. apply (other_ginv _ _ _ _ _ _ _ (proj1 (history_ginv _ _ _ _ _ _ _ E)) Eo K). Qed.
Lemma edits_total h gi go ops s a b : reaches_state h gi go ops s ->
  cs_remove_connection s a b <> Panic /\
  (cs_add_connection s a b = Panic <-> ~ connected ops a b /\ ~ (a < blocks ops /\ b < blocks ops)).
Proof.
  intros (ys & h' & E). pose proof (proj1 (history_ginv _ _ _ _ _ _ _ E)) as G. split.
  - destruct (disconnect_ok ops s a b G) as (s' & K & _). rewrite K. discriminate.
  - apply (connect_ok ops s a b G).
Qed.
Lemma order_complete h gi go pre e s : reaches_state h gi go (pre ++ [e]) s -> edits_order e = true ->
  let ops := pre ++ [e] in one_input (connected ops) -> forall x, fed (blocks ops) (connected ops) x -> In x (cs_order s).
Proof.
  intros (ys & h' & E) He. cbn zeta. intros T x Hx. destruct (history_ginv _ _ _ _ _ _ _ E) as [G O]. specialize (O _ _ eq_refl He).
  apply (tree_complete (cs_graph s) 0 1) with (3 := Nat.neq_0_succ 0) (4 := O).
  - apply G.
  - apply (one_input_tree _ _ G T).
  - apply (fed_sourced _ _ _ G), Hx.
Qed.
Lemma order_topological h gi go pre e s : reaches_state h gi go (pre ++ [e]) s -> edits_order e = true ->
  let ops := pre ++ [e] in one_input (connected ops) ->
  forall a b, connected ops a b -> fed (blocks ops) (connected ops) a -> b <> 0 -> a <> 1 -> precedes (cs_order s) a b.
Proof.
  intros (ys & h' & E) He. cbn zeta. intros T a b Hab Ha Nb Na. destruct (history_ginv _ _ _ _ _ _ _ E) as [G O]. specialize (O _ _ eq_refl He).
  apply (tree_topo (cs_graph s) 0 1) with (3 := Nat.neq_0_succ 0) (4 := O).
  - apply G.
  - apply (one_input_tree _ _ G T).
  - apply G, Hab.
  - apply (fed_sourced _ _ _ G), Ha.
  - exact Nb.
  - exact Na.
Qed.
Lemma order_no_source h gi go pre e s : reaches_state h gi go (pre ++ [e]) s -> edits_order e = true ->
  let ops := pre ++ [e] in (forall x, x < blocks ops -> exists a, connected ops a x) -> cs_order s = [0; 1].
Proof.
  intros (ys & h' & E) He. cbn zeta. intros H. destruct (history_ginv _ _ _ _ _ _ _ E) as [G O]. specialize (O _ _ eq_refl He).
  rewrite no_source_order in O; [congruence|]. intros x Hx. pose proof G as (_ & _ & L & _ & _ & C). rewrite L in Hx. destruct (H x Hx) as [a Ha].
  exists a. apply C, Ha.
Qed.

(** *** C63 *)
Definition cop_id (o : cop) : bool := match o with CRegister _ | CUnregister => true | _ => false end.
Definition sop_id (o : sop) : bool := match o with SRegister _ | SUnregister => true | _ => false end.
Lemma ss_id_step st o y st' : ss_step st o = Ok (y, st') ->
  ss_id (fst st') = match o with SRegister id => Some id | SUnregister => None | _ => ss_id (fst st) end.
Proof.
  destruct st as [s h]. intro E. destruct o; cbn in E.
  1:{ destruct (ss_process U up uo s h x) as [[z h']|]; [|discriminate]. cbn in E. injection E as <- <-. reflexivity. }
  all: injection E as <- <-; reflexivity.
Qed.
Lemma ss_id_history ops : forall st ys st', run_res ss_step st ops = Ok (ys, st') ->
  (existsb sop_id ops = false -> ss_id (fst st') = ss_id (fst st)) /\
  (forall l1 o l2, ops = l1 ++ o :: l2 -> existsb sop_id l2 = false ->
     match o with SRegister id => ss_id (fst st') = Some id | SUnregister => ss_id (fst st') = None | _ => True end).
Proof.
  induction ops as [|o ops IH]; intros st ys st' E.
  - cbn in E. injection E as <- <-. split; [reflexivity|]. intros [|] o l2 H; discriminate.
  - cbn in E. destruct (ss_step st o) as [[y s1]|] eqn:E1; [|discriminate]. cbn in E.
    destruct (run_res ss_step s1 ops) as [[ys2 s2]|] eqn:E2; [|discriminate]. cbn in E. injection E as <- <-.
    pose proof (ss_id_step _ _ _ _ E1) as S1. destruct (IH _ _ _ E2) as [I1 I2]. split.
    + cbn. intro H. apply orb_false_iff in H. destruct H as [H1 H2]. rewrite (I1 H2), S1. destruct o; try discriminate; reflexivity.
    + intros [|o' l1] o2 l2 H K; cbn in H; injection H as -> ->.
      * specialize (I1 K). destruct o2; try exact I; rewrite I1; exact S1.
      * eapply I2; [reflexivity|exact K].
Qed.
Lemma cs_id_step st o y st' : cs_step st o = Ok (y, st') ->
  cs_id (fst st') = match o with CRegister id => Some id | CUnregister => None | _ => cs_id (fst st) end.
Proof.
  destruct st as [s h]. intro E. destruct o; cbn in E.
  1:{ destruct (cs_process U up uo s h x) as [[z h']|]; [|discriminate]. cbn in E. injection E as <- <-. reflexivity. }
  6:{ destruct (cs_add_connection s a b) as [s'|] eqn:A; [|discriminate]. cbn in E. injection E as <- <-. cbn.
      unfold cs_add_connection in A. destruct (g_update_edge (cs_graph s) a b); [|discriminate]. cbn in A. apply cs_with_graph_ok in A. apply A. }
  6:{ destruct (cs_remove_connection s a b) as [s'|] eqn:A; [|discriminate]. cbn in E. injection E as <- <-. cbn.
      apply cs_with_graph_ok in A. apply A. }
  all: injection E as <- <-; reflexivity.
Qed.
Lemma cs_id_history ops : forall st ys st', run_res cs_step st ops = Ok (ys, st') ->
  (existsb cop_id ops = false -> cs_id (fst st') = cs_id (fst st)) /\
  (forall l1 o l2, ops = l1 ++ o :: l2 -> existsb cop_id l2 = false ->
     match o with CRegister id => cs_id (fst st') = Some id | CUnregister => cs_id (fst st') = None | _ => True end).
Proof.
  induction ops as [|o ops IH]; intros st ys st' E.
  - cbn in E. injection E as <- <-. split; [reflexivity|]. intros [|] o l2 H; discriminate.
  - cbn in E. destruct (cs_step st o) as [[y s1]|] eqn:E1; [|discriminate]. cbn in E.
    destruct (run_res cs_step s1 ops) as [[ys2 s2]|] eqn:E2; [|discriminate]. cbn in E. injection E as <- <-.
    pose proof (cs_id_step _ _ _ _ E1) as S1. destruct (IH _ _ _ E2) as [I1 I2]. split.
    + cbn. intro H. apply orb_false_iff in H. destruct H as [H1 H2]. rewrite (I1 H2), S1. destruct o; try discriminate; reflexivity.
    + intros [|o' l1] o2 l2 H K; cbn in H; injection H as -> ->.
      * specialize (I1 K). destruct o2; try exact I; rewrite I1; exact S1.
      * eapply I2; [reflexivity|exact K].
Qed.

(** *** linear graphs *)
Fixpoint linked (g : graph) (n : nat) (ns : list nat) : Prop :=
  match ns with [] => neighbors g n = [] | m :: r => neighbors g n = [m] /\ linked g m r end.
Lemma cs_run_cons g h n r out : cs_run U up uo g h (n :: r) out =
  do (p, b) <- node_mut U g h n; do (y, b') <- bproc b; do h1 <- prime_nodes U up g (put U h p b') (neighbors g n) y; cs_run U up uo g h1 r y.
Proof. reflexivity. Qed.
Lemma run_path g ns : forall n p ps b bs h out, nth_error (g_nodes g) n = Some p ->
  Forall2 (fun n p => nth_error (g_nodes g) n = Some p) ns ps -> linked g n ns -> NoDup (p :: ps) ->
  get_mut U h p = Some b -> held U h ps bs ->
  cs_run U up uo g h (n :: ns) out = do (y, b1) <- bproc b; do (z, l) <- series bprime bproc bs y; Ok (z, puts U (put U h p b1) ps l).
Proof.
  induction ns as [|m ns IH]; intros n p ps b bs h out Hn F L ND Hb Hh.
  - inversion F; subst. destruct bs; [|discriminate]. cbn [linked] in L. cbn [cs_run]. unfold node_mut. rewrite Hn. cbn [unwrap bind]. rewrite Hb. cbn [unwrap bind].
    destruct (bproc b) as [[y b1]|]; cbn [bind]; [|reflexivity]. rewrite L. reflexivity.
  - inversion F as [|? q ? qs Hm F']; subst. destruct bs as [|c bs]; [discriminate|]. destruct L as [L1 L2].
    unfold held in Hh. cbn [map] in Hh. injection Hh as Hc Hh. inversion ND as [|? ? Np ND']; subst.
    assert (Npq : p <> q) by (intros ->; apply Np; left; reflexivity).
    rewrite cs_run_cons. unfold node_mut at 1. rewrite Hn. cbn [unwrap bind]. rewrite Hb. cbn [unwrap bind].
    destruct (bproc b) as [[y b1]|]; cbn [bind]; [|reflexivity]. rewrite L1. cbn [prime_nodes]. unfold prime_node, node_mut at 1.
    rewrite Hm. cbn [unwrap bind]. rewrite get_mut_put_other, Hc by exact Npq. cbn [unwrap bind].
    rewrite (IH m q qs (bprime c y) bs).
    + cbn [series]. destruct (bproc (bprime c y)) as [[y2 c1]|]; cbn [bind]; [|reflexivity].
      destruct (series bprime bproc bs y2) as [[z l]|]; cbn [bind]; [|reflexivity]. cbn [puts]. rewrite put_put. reflexivity.
    + exact Hm.
    + exact F'.
    + exact L2.
    + exact ND'.
    + eapply get_mut_put_same. rewrite get_mut_put_other by exact Npq. exact Hc.
    + inversion ND'; subst. apply held_put_out; [assumption|]. apply held_put_out; [|exact Hh]. intro; apply Np; right; assumption.
Qed.
Lemma linear_process s ns p ps b bs h x : cs_paused s = false -> cs_muted s = false -> cs_order s = cs_ig s :: ns ->
  nth_error (g_nodes (cs_graph s)) (cs_ig s) = Some p -> Forall2 (fun n p => nth_error (g_nodes (cs_graph s)) n = Some p) ns ps ->
  linked (cs_graph s) (cs_ig s) ns -> NoDup (p :: ps) -> held U h (p :: ps) (b :: bs) ->
  cs_process U up uo s h x = do (z, l) <- series bprime bproc (b :: bs) x; Ok (z, puts U h (p :: ps) l).
Proof.
  intros P M O Hn F L ND H. unfold held in H. cbn [map] in H. injection H as Hb Hh. unfold cs_process. rewrite P, M, O.
  unfold prime_node, node_mut. rewrite Hn. cbn [unwrap bind]. rewrite Hb. cbn [unwrap bind].
  rewrite (run_path (cs_graph s) ns (cs_ig s) p ps (bprime b x) bs).
  - cbn [series]. destruct (bproc (bprime b x)) as [[y b1]|]; cbn [bind]; [|reflexivity].
    destruct (series bprime bproc bs y) as [[z l]|]; cbn [bind]; [|reflexivity]. cbn [puts]. rewrite put_put. reflexivity.
  - exact Hn.
  - exact F.
  - exact L.
  - exact ND.
  - eapply get_mut_put_same, Hb.
  - inversion ND; subst. apply held_put_out; [assumption|exact Hh].
Qed.
Lemma linear_history s ns ps : cs_paused s = false -> cs_muted s = false -> cs_order s = cs_ig s :: ns ->
  Forall2 (fun n p => nth_error (g_nodes (cs_graph s)) n = Some p) (cs_ig s :: ns) ps ->
  linked (cs_graph s) (cs_ig s) ns -> NoDup ps -> forall xs bs h, held U h ps bs ->
  run_res (cs_process U up uo s) h xs = do (ys, bs') <- run_res (series bprime bproc) bs xs; Ok (ys, puts U h ps bs').
Proof.
  intros P M O F L ND. inversion F as [|? p ? ps' Hn F']; subst. induction xs as [|x xs IH]; intros bs h H.
  - cbn [run_res bind]. f_equal. f_equal.
    (* storing back what is there *)
    clear -H. revert bs H. generalize (p :: ps'). intro l. revert h. induction l as [|q l IH]; intros h [|b bs] H; try reflexivity; try discriminate.
    unfold held in H. cbn [map] in H. injection H as H1 H2. cbn [puts].
    assert (E : put U h q b = h).
    { apply upd_id. intros c Hc. apply get_mut_spec in H1. destruct H1 as [_ (c' & E' & <-)]. assert (c' = c) by congruence. subst. destruct c; reflexivity. }
    rewrite E. apply IH. exact H2.
  - destruct bs as [|b bs]; [discriminate|]. cbn [run_res]. rewrite (linear_process s ns p ps' b bs h x) by assumption.
    destruct (series bprime bproc (b :: bs) x) as [[z l]|] eqn:S1; cbn [bind]; [|reflexivity].
    pose proof (series_length U up uo _ _ _ _ S1) as Ll. pose proof (held_length _ _ _ _ H) as Lh.
    rewrite (IH l).
    2:{ apply (puts_held U _ ND (b :: bs)); assumption. }
    destruct (run_res (series bprime bproc) l xs) as [[ys bs2]|] eqn:S2; cbn [bind]; [|reflexivity].
    assert (Lb : length bs2 = length l).
    { clear -S2. revert l ys bs2 S2. induction xs as [|x xs IH]; intros l ys bs2 S2; cbn in S2; [injection S2 as <- <-; reflexivity|].
      destruct (series bprime bproc l x) as [[z l1]|] eqn:S; [|discriminate]. cbn in S2. destruct (run_res _ l1 xs) as [[zs l2]|] eqn:R; [|discriminate].
      cbn in S2. injection S2 as <- <-. rewrite (IH _ _ _ R). eapply series_length, S. }
    rewrite puts_puts by (try exact ND; lia). reflexivity.
Qed.

(** building the chain through the API *)
Definition path (n : nat) : list nat := 0 :: seq 2 n ++ [1].
Definition links (l : list nat) : list (nat * nat) := combine l (tl l).
Definition connects (l : list (nat * nat)) : list cop := map (fun e => CConnect (fst e) (snd e)) l.
Lemma add_blocks ps : forall s h, exists s', run_res cs_step (s, h) (map CAddBlock ps) = Ok (map (fun _ => None) ps, (s', h)) /\
  cs_graph s' = mkGraph (g_nodes (cs_graph s) ++ ps) (g_edges (cs_graph s)) /\ cs_ig s' = cs_ig s /\ cs_og s' = cs_og s /\
  cs_muted s' = cs_muted s /\ cs_paused s' = cs_paused s /\ cs_order s' = cs_order s.
Proof.
  induction ps as [|p ps IH]; intros s h.
  - exists s. cbn. rewrite app_nil_r. repeat split. destruct (cs_graph s); reflexivity.
  - cbn [map run_res]. cbn [SoundSpec.cs_step bind]. destruct (IH (fst (cs_add_block s p)) h) as (s' & E & G & I1 & I2 & I3 & I4 & I5).
    exists s'. rewrite E. cbn [bind]. split; [reflexivity|]. cbn in *. rewrite <- app_assoc in G. auto 10.
Qed.
Lemma connect_links l : forall s h, cs_ig s = 0 -> cs_og s = 1 -> gwf (cs_graph s) ->
  (forall a b, In (a, b) l -> a < length (g_nodes (cs_graph s)) /\ b < length (g_nodes (cs_graph s))) ->
  NoDup (rev l ++ g_edges (cs_graph s)) ->
  exists s', run_res cs_step (s, h) (connects l) = Ok (map (fun _ => None) l, (s', h)) /\
    cs_graph s' = mkGraph (g_nodes (cs_graph s)) (rev l ++ g_edges (cs_graph s)) /\ cs_ig s' = 0 /\ cs_og s' = 1 /\
    cs_muted s' = cs_muted s /\ cs_paused s' = cs_paused s /\ (l <> [] -> process_order (cs_graph s') 0 1 = Some (cs_order s')).
Proof.
  induction l as [|[a b] l IH]; intros s h I0 I1 W R N.
  - exists s. cbn. repeat split; auto; [destruct (cs_graph s); reflexivity|congruence].
  - unfold connects. cbn [map run_res fst snd]. cbn [SoundSpec.cs_step]. unfold cs_add_connection, g_update_edge.
    assert (F : g_find_edge (cs_graph s) a b = false).
    { apply not_true_is_false. intro F. apply find_edge_In in F. cbn [rev] in N. rewrite <- app_assoc in N. apply NoDup_remove_2 in N. apply N. apply in_or_app. auto. }
    rewrite F. destruct (R a b (or_introl eq_refl)) as [Ra Rb]. apply Nat.ltb_lt in Ra, Rb. rewrite Ra, Rb. cbn [andb bind].
    set (g := mkGraph (g_nodes (cs_graph s)) ((a, b) :: g_edges (cs_graph s))).
    assert (W' : gwf g).
    { apply Nat.ltb_lt in Ra, Rb. intros c d [H|H]; cbn; [injection H as <- <-; lia|apply (W c d H)]. }
    destruct (order_total _ W') as [o O]. unfold cs_with_graph. rewrite I0, I1, O. cbn [bind].
    set (s1 := mkComplex g o 0 1 (cs_id s) (cs_muted s) (cs_paused s)).
    destruct (IH s1 h) as (s' & E & G & J0 & J1 & J2 & J3 & J4).
    + reflexivity.
    + reflexivity.
    + exact W'.
    + intros c d H. apply (R c d (or_intror H)).
    + cbn [rev] in N. rewrite <- app_assoc in N. exact N.
    + exists s'. fold (connects l). rewrite E. cbn [bind]. split; [reflexivity|]. cbn [rev]. rewrite <- app_assoc. split; [exact G|]. split; [exact J0|]. split; [exact J1|].
      split; [exact J2|]. split; [exact J3|]. intros _. destruct l as [|e l]; [|apply J4; discriminate].
      cbn in E. injection E as <-. exact O.
Qed.
Lemma path_NoDup n : NoDup (path n).
Proof.
  unfold path. constructor.
  - rewrite in_app_iff, in_seq. intros [H|[H|[]]]; lia.
  - apply NoDup_app_intro; [apply seq_NoDup|constructor; [intros []|constructor]|]. intros x Hx [<-|[]]. apply in_seq in Hx. lia.
Qed.
Lemma links_fst l : map fst (links l) = removelast l.
Proof.
  unfold links. induction l as [|a l IH]; [reflexivity|]. destruct l as [|b l]; [reflexivity|]. cbn in *. f_equal. exact IH.
Qed.
Lemma links_snd l : map snd (links l) = tl l.
Proof. unfold links. induction l as [|a l IH]; [reflexivity|]. destruct l as [|b l]; [reflexivity|]. cbn in *. f_equal. exact IH. Qed.
Lemma NoDup_app_remove_r {A} (l l' : list A) : NoDup (l ++ l') -> NoDup l.
Proof.
  induction l as [|a l IH]; intro H; [constructor|]. cbn in H. inversion H; subst. constructor; [|auto]. intro K. apply H2. apply in_or_app. auto.
Qed.
Lemma NoDup_map_NoDup {A B} (f : A -> B) l : NoDup (map f l) -> NoDup l.
Proof.
  induction l as [|a l IH]; intro H; [constructor|]. cbn in H. inversion H; subst. constructor; [|auto]. intro K. apply H2. apply in_map, K.
Qed.
Lemma neighbors_one (l : list (nat * nat)) a b : NoDup (map fst l) -> In (a, b) l -> map snd (filter (fun e => fst e =? a) l) = [b].
Proof.
  induction l as [|[c d] l IH]; intros N H; [destruct H|]. cbn in N. inversion N as [|? ? N1 N2]; subst. cbn. destruct H as [H|H].
  - injection H as -> ->. rewrite Nat.eqb_refl. cbn. f_equal.
    assert (Q : forall e, In e l -> fst e <> a) by (intros e He Q; apply N1; rewrite <- Q; apply in_map, He).
    clear -Q. induction l as [|e l IH]; [reflexivity|]. cbn. destruct (Nat.eqb_spec (fst e) a) as [E|E]; [destruct (Q e (or_introl eq_refl) E)|].
    apply IH. intros x Hx. apply Q. right. exact Hx.
  - destruct (Nat.eqb_spec c a) as [->|E]; [exfalso; apply N1; change a with (fst (a, b)); apply in_map, H|]. apply IH; assumption.
Qed.
Lemma neighbors_none (l : list (nat * nat)) a : ~ In a (map fst l) -> map snd (filter (fun e => fst e =? a) l) = [].
Proof.
  induction l as [|e l IH]; intro N; [reflexivity|]. cbn in *. destruct (Nat.eqb_spec (fst e) a) as [E|E]; [tauto|]. apply IH. tauto.
Qed.
Lemma links_linked g l n ns : l = n :: ns -> NoDup l -> (forall e, In e (g_edges g) <-> In e (links l)) -> NoDup (map fst (g_edges g)) ->
  linked g n ns.
Proof.
  intros E N I F.
  assert (K : forall m ms pre, l = pre ++ m :: ms -> linked g m ms).
  { intros m ms. revert m. induction ms as [|m' ms IH]; intros m pre El; cbn [linked].
    - apply neighbors_none. intro H. apply in_map_iff in H. destruct H as ((a, b) & Ea & H). cbn in Ea. subst a. apply I in H.
      assert (H' : In m (removelast l)) by (rewrite <- links_fst; change m with (fst (m, b)); apply in_map, H).
      rewrite El, removelast_last in H'. rewrite El in N. apply NoDup_remove_2 in N. rewrite app_nil_r in N. contradiction.
    - split; [|apply (IH m' (pre ++ [m])); rewrite <- app_assoc; exact El].
      apply neighbors_one; [exact F|]. apply I. rewrite El. clear. unfold links. induction pre as [|p pre IH]; [left; reflexivity|].
      destruct pre; cbn in *; right; [left; reflexivity|]. exact IH. }
  exact (K n ns [] E).
Qed.
Lemma linked_nth g ns : forall n i x, linked g n ns -> nth_error (n :: ns) i = Some x ->
  neighbors g x = match nth_error ns i with Some y => [y] | None => [] end.
Proof.
  induction ns as [|m ns IH]; intros n i x L H; cbn [linked] in L.
  - destruct i; cbn in H; [injection H as <-; exact L|destruct i; discriminate].
  - destruct L as [L1 L2]. destruct i; cbn in H; [injection H as <-; exact L1|]. apply (IH m i x L2 H).
Qed.
Lemma path_loop g n ns : NoDup (n :: ns) -> linked g n ns -> forall k i fuel, i + k = length (n :: ns) -> k < fuel ->
  order_loop fuel g i (firstn (S i) (n :: ns)) = Some (n :: ns).
Proof.
  intros N L. induction k as [|k IH]; intros i fuel E F; (destruct fuel as [|fuel]; [lia|]); cbn [order_loop].
  - rewrite firstn_all2 by lia. rewrite (proj2 (nth_error_None (n :: ns) i)) by lia. reflexivity.
  - rewrite nth_firstn by lia. destruct (nth_error (n :: ns) i) as [x|] eqn:X; [|apply nth_error_None in X; lia].
    rewrite (linked_nth g ns n i x L X).
    assert (Q : firstn (S i) (n :: ns) ++ match nth_error ns i with Some y => [y] | None => [] end = firstn (S (S i)) (n :: ns)).
    { clear. cbn [firstn]. change (n :: firstn i ns ++ match nth_error ns i with Some y => [y] | None => [] end = n :: firstn (S i) ns). f_equal.
      revert i. induction ns as [|m ns IH]; intros [|i]; try reflexivity. cbn [firstn nth_error app]. f_equal. apply IH. }
    rewrite Q, dedup_id.
    + apply IH; lia.
    + rewrite <- (firstn_skipn (S (S i)) (n :: ns)) in N. apply NoDup_app_remove_r in N. exact N.
Qed.
Lemma links_path_range n a b : In (a, b) (links (path n)) -> a < n + 2 /\ b < n + 2.
Proof.
  intro H. assert (K : forall x, In x (path n) -> x < n + 2).
  { intros x [<-|Hx]; [lia|]. apply in_app_or in Hx. destruct Hx as [Hx|[<-|[]]]; [apply in_seq in Hx; lia|lia]. }
  apply in_combine_l in H as Ha. apply in_combine_r in H as Hb. split; apply K; [exact Ha|]. right. exact Hb.
Qed.
Lemma filter_zero n : filter (fun x => x =? 0) (seq 0 (n + 2)) = [0].
Proof.
  replace (n + 2) with (S (n + 1)) by lia. cbn. f_equal. induction (n + 1) as [|m IH]; [reflexivity|]. rewrite seq_S, filter_app, IH. reflexivity.
Qed.
Lemma path_order n g : length (g_nodes g) = n + 2 -> g_edges g = rev (links (path n)) ->
  process_order g 0 1 = Some (path n) /\ linked g 0 (seq 2 n ++ [1]).
Proof.
  intros L E. assert (N := path_NoDup n).
  assert (LK : linked g 0 (seq 2 n ++ [1])).
  { apply (links_linked g (path n)); [reflexivity|exact N| |].
    - intro e. rewrite E. symmetry. apply in_rev.
    - rewrite E, map_rev, links_fst. apply NoDup_rev. unfold path. rewrite app_comm_cons, removelast_last. unfold path in N. rewrite app_comm_cons in N.
      apply NoDup_app_remove_r in N. exact N. }
  split; [|exact LK].
  assert (X : externals_in g = [0]).
  { rewrite <- (filter_zero n). unfold externals_in. rewrite L. apply filter_ext_in. intros x Hx. apply in_seq in Hx.
    destruct (Nat.eqb_spec x 0) as [->|Nx].
    - apply negb_true_iff, not_true_is_false. intro H. apply existsb_exists in H. destruct H as ((a, b) & H & K). cbn in K. apply Nat.eqb_eq in K. subst b.
      rewrite E in H. apply in_rev in H. apply in_combine_r in H. unfold path in N. inversion N; subst. cbn in H. contradiction.
    - apply negb_false_iff, existsb_exists. assert (In x (map snd (links (path n)))).
      { rewrite links_snd. cbn. apply in_or_app. destruct (Nat.eq_dec x 1) as [->|]; [right; left; reflexivity|]. left. apply in_seq. lia. }
      apply in_map_iff in H. destruct H as (e & <- & H). exists e. split; [rewrite E; apply in_rev in H; rewrite <- in_rev in H; apply -> in_rev; exact H|apply Nat.eqb_refl]. }
  unfold process_order, order_fuel. rewrite X.
  change [0] with (firstn 1 (0 :: seq 2 n ++ [1])).
  rewrite (path_loop g 0 (seq 2 n ++ [1]) N LK (length (path n)) 0).
  - f_equal. unfold path. cbn. f_equal. rewrite filter_app. cbn. rewrite app_nil_r. f_equal.
    assert (Q : forall l, (forall x, In x l -> 2 <= x) -> filter (fun e => negb (e =? 0) && negb (e =? 1)) l = l).
    { induction l as [|x l IH]; intro H; [reflexivity|]. cbn. pose proof (H x (or_introl eq_refl)). destruct (Nat.eqb_spec x 0); [lia|]. destruct (Nat.eqb_spec x 1); [lia|].
      cbn. f_equal. apply IH. intros y Hy. apply H. right. exact Hy. }
    apply Q. intros x Hx. apply in_seq in Hx. lia.
  - reflexivity.
  - rewrite L. unfold path. cbn. rewrite app_length, seq_length. cbn. lia.
Qed.
Definition build_chain (ps : list handle) : list cop := map CAddBlock ps ++ connects (links (path (length ps))).
Lemma chain_built ps h0 gi go : exists s ys,
  run_res cs_step (cs_new U h0 gi go) (build_chain ps) = Ok (ys, (s, snd (cs_new U h0 gi go))) /\
  cs_order s = path (length ps) /\ cs_ig s = 0 /\ cs_muted s = false /\ cs_paused s = false /\
  linked (cs_graph s) 0 (seq 2 (length ps) ++ [1]) /\ g_nodes (cs_graph s) = [length h0; S (length h0)] ++ ps.
Proof.
  unfold build_chain. set (s0 := fst (cs_new U h0 gi go)). set (h := snd (cs_new U h0 gi go)).
  assert (E0 : cs_new U h0 gi go = (s0, h)) by reflexivity. rewrite E0.
  assert (G0 : cs_graph s0 = mkGraph [length h0; S (length h0)] []) by (unfold s0; cbn; rewrite app_length, Nat.add_1_r; reflexivity).
  assert (F0 : cs_ig s0 = 0 /\ cs_og s0 = 1 /\ cs_muted s0 = false /\ cs_paused s0 = false) by (repeat split).
  clearbody s0 h. destruct F0 as (F1 & F2 & F3 & F4).
  destruct (add_blocks ps s0 h) as (s1 & E1 & G1 & A1 & A2 & A3 & A4 & A5). rewrite G0 in G1. cbn [g_nodes g_edges] in G1.
  assert (Ln : length (g_nodes (cs_graph s1)) = length ps + 2) by (rewrite G1; cbn; lia).
  destruct (connect_links (links (path (length ps))) s1 h) as (s2 & E2 & G2 & B1 & B2 & B3 & B4 & B5).
  - congruence.
  - congruence.
  - intros a b H. rewrite G1 in H. destruct H.
  - intros a b H. rewrite Ln. apply links_path_range, H.
  - rewrite G1. cbn [g_edges]. rewrite app_nil_r. apply NoDup_rev. apply (NoDup_map_NoDup snd). rewrite links_snd.
    pose proof (path_NoDup (length ps)) as N. inversion N; subst. assumption.
  - exists s2, (map (fun _ => None) ps ++ map (fun _ => None) (links (path (length ps)))).
    split; [rewrite (run_res_app _ _ _ _ _ _ E1), E2; reflexivity|].
    rewrite G1 in G2. cbn [g_edges g_nodes] in G2. rewrite app_nil_r in G2.
    destruct (path_order (length ps) (cs_graph s2)) as [P1 P2].
    + rewrite G2. cbn. lia.
    + rewrite G2. reflexivity.
    + rewrite B5 in P1.
      * injection P1 as P1. rewrite P1, B1, B3, A3, F3, B4, A4, F4, G2. repeat split; auto. rewrite G2 in P2. exact P2.
      * unfold links, path. destruct (length ps); discriminate.
Qed.
(** each block primed once and processed once per call *)
Definition linear_spec (gi go : f32) (bs : list block) (x : f32) : res (f32 * list block) :=
  do (y, bs') <- series bprime bproc bs (fmul (fadd f0 x) gi); Ok (fmul (fadd f0 y) go, bs').
Lemma series_app b1 : forall b2 x, series bprime bproc (b1 ++ b2) x =
  do (y, l1) <- series bprime bproc b1 x; do (z, l2) <- series bprime bproc b2 y; Ok (z, l1 ++ l2).
Proof.
  induction b1 as [|b b1 IH]; intros b2 x; cbn [app series bind].
  - destruct (series bprime bproc b2 x) as [[z l2]|]; reflexivity.
  - destruct (bproc (bprime b x)) as [[y b']|]; cbn [bind]; [|reflexivity]. rewrite IH.
    destruct (series bprime bproc b1 y) as [[z l1]|]; cbn [bind]; [|reflexivity].
    destruct (series bprime bproc b2 z) as [[w l2]|]; reflexivity.
Qed.
Lemma gain_series a x : series bprime bproc [Gainer U (gain_block a)] x = Ok (fmul (fadd f0 x) a, [Gainer U (gain_block a)]).
Proof. reflexivity. Qed.
Lemma linear_series gi go bs x :
  series bprime bproc (Gainer U (gain_block gi) :: bs ++ [Gainer U (gain_block go)]) x =
  do (y, bs') <- linear_spec gi go bs x; Ok (y, Gainer U (gain_block gi) :: bs' ++ [Gainer U (gain_block go)]).
Proof.
  change (Gainer U (gain_block gi) :: bs ++ [Gainer U (gain_block go)]) with ([Gainer U (gain_block gi)] ++ (bs ++ [Gainer U (gain_block go)])).
  rewrite series_app, gain_series. cbn [bind]. rewrite series_app. unfold linear_spec.
  destruct (series bprime bproc bs (fmul (fadd f0 x) gi)) as [[y bs']|]; cbn [bind]; [|reflexivity]. rewrite gain_series. reflexivity.
Qed.
Lemma linear_series_history gi go xs : forall bs,
  run_res (series bprime bproc) (Gainer U (gain_block gi) :: bs ++ [Gainer U (gain_block go)]) xs =
  do (ys, bs') <- run_res (linear_spec gi go) bs xs; Ok (ys, Gainer U (gain_block gi) :: bs' ++ [Gainer U (gain_block go)]).
Proof.
  induction xs as [|x xs IH]; intro bs; [reflexivity|]. cbn [run_res]. rewrite linear_series.
  destruct (linear_spec gi go bs x) as [[y bs1]|]; cbn [bind]; [|reflexivity]. rewrite IH.
  destruct (run_res (linear_spec gi go) bs1 xs) as [[ys bs2]|]; reflexivity.
Qed.
Lemma held_new h0 gi go ps bs : held U h0 ps bs ->
  held U (snd (cs_new U h0 gi go)) (length h0 :: ps ++ [S (length h0)])
    (Gainer U (gain_block (to32 gi)) :: bs ++ [Gainer U (gain_block (to32 go))]).
Proof.
  intro H. set (h := snd (cs_new U h0 gi go)).
  assert (Eh : h = h0 ++ [mkCell U 1 (Gainer U (gain_block (to32 gi))); mkCell U 1 (Gainer U (gain_block (to32 go)))])
    by (unfold h; cbn; rewrite <- app_assoc; reflexivity).
  rewrite Eh. unfold held in *. cbn [map]. f_equal.
  - unfold get_mut. rewrite nth_error_app2, Nat.sub_diag by lia. reflexivity.
  - rewrite !map_app. f_equal.
    + rewrite <- H. apply map_ext_in. intros p Hp. unfold get_mut. rewrite nth_error_app1; [reflexivity|].
      assert (K : get_mut U h0 p <> None).
      { assert (J : In (get_mut U h0 p) (map Some bs)) by (rewrite <- H; apply in_map, Hp). apply in_map_iff in J. destruct J as (b & <- & _). discriminate. }
      apply nth_error_Some. intro N. apply K. unfold get_mut. rewrite N. reflexivity.
    + cbn. unfold get_mut. rewrite nth_error_app2 by lia. replace (S (length h0) - length h0) with 1 by lia. reflexivity.
Qed.
Lemma nth_seq_app (ps : list handle) x y : Forall2 (fun n p => nth_error ([x; y] ++ ps) n = Some p) (seq 2 (length ps)) ps.
Proof.
  assert (K : forall (l pre : list handle), Forall2 (fun n p => nth_error (pre ++ l) n = Some p) (seq (length pre) (length l)) l).
  { induction l as [|a l IH]; intro pre; [constructor|]. cbn [seq length]. constructor.
    - rewrite nth_error_app2, Nat.sub_diag by lia. reflexivity.
    - specialize (IH (pre ++ [a])). rewrite app_length, Nat.add_1_r in IH. rewrite <- app_assoc in IH. exact IH. }
  exact (K ps [x; y]).
Qed.
Lemma linear_sound ps bs h0 gi go : NoDup ps -> held U h0 ps bs ->
  exists ys0 s, run_res cs_step (cs_new U h0 gi go) (build_chain ps) = Ok (ys0, (s, snd (cs_new U h0 gi go))) /\
    cs_order s = path (length ps) /\
    forall xs, outputs (run_res (cs_process U up uo s) (snd (cs_new U h0 gi go)) xs) =
      outputs (run_res (linear_spec (to32 gi) (to32 go)) bs xs).
Proof.
  intros ND H. destruct (chain_built ps h0 gi go) as (s & ys0 & E & O & I0 & M & P & L & G). exists ys0, s. split; [exact E|]. split; [exact O|]. intro xs.
  assert (Hin : forall p, In p ps -> p < length h0).
  { intros p Hp. apply nth_error_Some. intro N. assert (J : In (get_mut U h0 p) (map Some bs)) by (unfold held in H; rewrite <- H; apply in_map, Hp).
    apply in_map_iff in J. destruct J as (b & J & _). unfold get_mut in J. rewrite N in J. discriminate. }
  rewrite (linear_history s (seq 2 (length ps) ++ [1]) (length h0 :: ps ++ [S (length h0)])) with (bs := Gainer U (gain_block (to32 gi)) :: bs ++ [Gainer U (gain_block (to32 go))]).
  - rewrite linear_series_history. destruct (run_res (linear_spec (to32 gi) (to32 go)) bs xs) as [[ys bs']|]; reflexivity.
  - exact P.
  - exact M.
  - rewrite I0. exact O.
  - rewrite I0, G. constructor; [reflexivity|]. apply Forall2_app; [apply nth_seq_app|]. constructor; [reflexivity|constructor].
  - rewrite I0. exact L.
  - constructor.
    + intro K. apply in_app_or in K. destruct K as [K|[K|[]]]; [apply Hin in K; lia|lia].
    + apply NoDup_app_intro; [exact ND|constructor; [intros []|constructor]|]. intros p Hp [<-|[]]. apply Hin in Hp. lia.
  - apply held_new, H.
Qed.

(** SimpleSound with the same blocks, and the difference between the two *)
Lemma series_opt_all bs : forall x, series_opt bprime bproc (map Some bs) x = do (y, l) <- series bprime bproc bs x; Ok (y, map Some l).
Proof.
  induction bs as [|b bs IH]; intro x; [reflexivity|]. cbn. destruct (bproc (bprime b x)) as [[y b']|]; cbn; [|reflexivity].
  rewrite IH. destruct (series bprime bproc bs y) as [[z l]|]; reflexivity.
Qed.
Lemma simple_all gi go b bs x : simple_spec bprime bproc gi go (Some b, map Some bs) x =
  do (y, l) <- series bprime bproc (b :: bs) (fmul x gi); Ok (fmul y go, (hd_error l, map Some (tl l))).
Proof.
  unfold simple_spec. cbn [fst snd series]. destruct (bproc (bprime b (fmul x gi))) as [[y b']|]; cbn [bind]; [|reflexivity].
  rewrite series_opt_all. destruct (series bprime bproc bs y) as [[z l]|]; reflexivity.
Qed.

(** ** building *)
Lemma build_simple calls : forall s, fold_left madd_step calls s =
  mkSimple (ss_gen s) (ss_mods s ++ added calls) (ss_in s) (ss_out s) (ss_id s) (ss_muted s) (ss_paused s).
Proof.
  induction calls as [|c r IH]; intro s; cbn [fold_left].
  - unfold added. cbn. rewrite app_nil_r. destruct s; reflexivity.
  - rewrite IH. unfold added. cbn [map concat]. destruct c; unfold madd_step, ss_add_modifier, ss_extend_modifiers; cbn [ss_gen ss_mods ss_in ss_out ss_id ss_muted ss_paused];
      rewrite app_assoc; reflexivity.
Qed.
Lemma built_new gi go g calls : fold_left madd_step calls (ss_new gi go g) = mkSimple g (added calls) (to32 gi) (to32 go) None false false.
Proof. rewrite build_simple. reflexivity. Qed.
Lemma series_length {B} (pr : B -> f32 -> B) (pc : B -> res (f32 * B)) bs : forall x y l, series pr pc bs x = Ok (y, l) -> length l = length bs.
Proof.
  induction bs as [|b bs IH]; intros x y l; cbn [series]; [intro E; injection E as _ <-; reflexivity|].
  destruct (pc (pr b x)) as [[z b']|]; cbn [bind]; [|discriminate]. destruct (series pr pc bs z) as [[z' r]|] eqn:E; cbn [bind]; [|discriminate].
  intro H. injection H as _ <-. cbn. rewrite (IH _ _ _ E). reflexivity.
Qed.
Lemma spec_series_history gi go xs : forall b bs,
  outputs (run_res (simple_spec bprime bproc gi go) (Some b, map Some bs) xs) = outputs (run_res (scaled_series bprime bproc gi go) (b :: bs) xs).
Proof.
  induction xs as [|x xs IH]; intros b bs; [reflexivity|]. cbn [run_res]. rewrite simple_all. unfold scaled_series at 1.
  destruct (series bprime bproc (b :: bs) (fmul x gi)) as [[y l]|] eqn:E; cbn [bind]; [|reflexivity].
  apply series_length in E. destruct l as [|b' l]; [discriminate|]. cbn [hd_error tl]. specialize (IH b' l).
  destruct (run_res (simple_spec bprime bproc gi go) (Some b', map Some l) xs) as [[ys s1]|], (run_res (scaled_series bprime bproc gi go) (b' :: l) xs) as [[zs s2]|];
    cbn in *; try discriminate; [|reflexivity]. injection IH as ->. reflexivity.
Qed.
Lemma built_series gi go g calls h b bs xs : NoDup (g :: added calls) -> held U h (g :: added calls) (b :: bs) ->
  outputs (run_res (ss_process U up uo (fold_left madd_step calls (ss_new gi go g))) h xs) =
  outputs (run_res (scaled_series bprime bproc (to32 gi) (to32 go)) (b :: bs) xs).
Proof.
  intros ND H. rewrite built_new. set (s := mkSimple _ _ _ _ _ _ _).
  assert (EV : forall p, In p (g :: added calls) -> exists c, view U h p = Some c).
  { intros p Hp. unfold held in H. assert (I : In (view U h p) (map Some (b :: bs))) by (rewrite <- H; apply in_map with (f := view U h), Hp).
    apply in_map_iff in I. destruct I as (c & E & _). exists c. symmetry. exact E. }
  rewrite (simple_series_history U up uo s eq_refl eq_refl).
  - unfold held in H. cbn [map] in H. assert (E1 := f_equal (@hd _ None) H). assert (E2 := f_equal (@tl _) H). cbn [hd tl] in E1, E2.
    unfold ss_view. cbn [ss_gen ss_mods ss_in ss_out s]. replace (view U h g) with (Some b) by (symmetry; exact E1).
    change (map (view U h) (added calls)) with (map (get_mut U h) (added calls)). rewrite E2. apply spec_series_history.
  - intros p Hp. change (ss_handles s) with (g :: added calls) in *. destruct (EV p Hp) as [c V].
    apply get_mut_spec in V. destruct V as [V _]. rewrite (proj1 (NoDup_count_occ' Nat.eq_dec _) ND p Hp). lia.
Qed.
Lemma fadd_0_l x : B2SF x <> SpecFloat.S754_zero true -> fadd f0 x = x :> f32.
Proof. destruct x as [[|]|[|]| |s m e Hb]; intro H; try reflexivity. destruct (H eq_refl). Qed.

(** *** no connections *)
Lemma unconnected_run gi go h0 xs : let st := cs_new U h0 gi go in
  let mem v := h0 ++ [mkCell U 1 (Gainer U (sb_prime (gain_block (to32 gi)) v)); mkCell U 1 (Gainer U (gain_block (to32 go)))] in
  forall acc, let mk a := h0 ++ [mkCell U 1 (Gainer U (mkSB tt 1%Z (to32 gi) 1%Z tt 1%Z a)); mkCell U 1 (Gainer U (gain_block (to32 go)))] in
  run_res cs_step (fst st, mk acc) (map CProcess xs) = Ok (map (fun _ => Some f0) xs, (fst st, mk (fold_left fadd xs acc))).
Proof.
  cbn zeta. induction xs as [|x xs IH]; intro acc; [reflexivity|]. cbn [map run_res fold_left].
  assert (E : cs_step (fst (cs_new U h0 gi go), h0 ++ [mkCell U 1 (Gainer U (mkSB tt 1%Z (to32 gi) 1%Z tt 1%Z acc)); mkCell U 1 (Gainer U (gain_block (to32 go)))]) (CProcess x)
    = Ok (Some f0, (fst (cs_new U h0 gi go), h0 ++ [mkCell U 1 (Gainer U (mkSB tt 1%Z (to32 gi) 1%Z tt 1%Z (fadd acc x))); mkCell U 1 (Gainer U (gain_block (to32 go)))]))).
  { cbn [SoundSpec.cs_step]. unfold cs_process, prime_node, node_mut. cbn [cs_new alloc g_add_node fst snd cs_paused cs_graph cs_ig g_nodes nth_error app unwrap bind cs_order cs_run cs_muted length].
    unfold get_mut. rewrite nth_error_app2, Nat.sub_diag by lia. cbn. do 3 f_equal. unfold put.
    assert (K : forall (l : heap) c r f, upd (l ++ c :: r) (length l) f = l ++ f c :: r) by (induction l as [|a l IHl]; intros; cbn; [reflexivity|]; f_equal; apply IHl).
    rewrite K. reflexivity. }
  rewrite E. cbn [bind]. rewrite IH. reflexivity.
Qed.
Lemma unconnected_then_connected gi go h0 xs x : exists st,
  run_res cs_step (cs_new U h0 gi go) (map CProcess xs ++ [CConnect 0 1; CProcess x]) =
  Ok (map (fun _ => Some f0) xs ++ [None; Some (fmul (fadd f0 (fmul (fold_left fadd (xs ++ [x]) f0) (to32 gi))) (to32 go))], st).
Proof.
  pose proof (unconnected_run gi go h0 xs f0) as E. cbn zeta in E.
  assert (E0 : cs_new U h0 gi go = (fst (cs_new U h0 gi go), h0 ++ [mkCell U 1 (Gainer U (mkSB tt 1%Z (to32 gi) 1%Z tt 1%Z f0)); mkCell U 1 (Gainer U (gain_block (to32 go)))]))
    by (cbn; rewrite <- app_assoc; reflexivity).
  rewrite E0. rewrite (run_res_app _ _ _ _ _ _ E). rewrite fold_left_app. cbn [fold_left]. set (a := fold_left fadd xs f0). clearbody a. clear E E0.
  set (s := fst (cs_new U h0 gi go)).
  assert (E1 : cs_add_connection s 0 1 = Ok (mkComplex (mkGraph [length h0; S (length h0)] [(0, 1)]) [0; 1] 0 1 None false false)).
  { unfold s. cbn. rewrite app_length, Nat.add_1_r. reflexivity. }
  cbn [run_res]. cbn [SoundSpec.cs_step]. rewrite E1. cbn [bind]. clear E1 s.
  set (s := mkComplex (mkGraph [length h0; S (length h0)] [(0, 1)]) [0; 1] 0 1 None false false).
  set (b1 := Gainer U (mkSB tt 1%Z (to32 gi) 1%Z tt 1%Z a)). set (b2 := Gainer U (gain_block (to32 go))).
  cbn [SoundSpec.cs_step]. rewrite (linear_process s [1] (length h0) [S (length h0)] b1 [b2]).
  - cbn. eexists. reflexivity.
  - reflexivity.
  - reflexivity.
  - reflexivity.
  - reflexivity.
  - constructor; [reflexivity|constructor].
  - cbn. auto.
  - constructor; [intros [H|[]]; lia|constructor; [intros []|constructor]].
  - unfold held, get_mut. cbn [map]. rewrite nth_error_app2, Nat.sub_diag by lia. rewrite nth_error_app2 by lia. replace (S (length h0) - length h0) with 1 by lia. reflexivity.
Qed.
End Sounds.

(** helpers for concrete histories *)
Lemma connected_In ops a b : connected ops a b -> In (CConnect a b) ops.
Proof. intros (l1 & l2 & -> & _). apply in_or_app. right. left. reflexivity. Qed.
Lemma connected_by ops a b : In (CConnect a b) ops -> ~ In (CDisconnect a b) ops -> connected ops a b.
Proof.
  intros H N. apply in_split in H. destruct H as (l1 & l2 & ->). exists l1, l2. split; [reflexivity|]. intro K. apply N. apply in_or_app. right. right. exact K.
Qed.
