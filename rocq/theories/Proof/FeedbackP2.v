(** * ComplexSounds with feedback connections: order and dataflow *)
From Coq Require Import ZArith List Bool Arith Lia.
From Verif Require Import Model.Floats Model.Modifiers Model.Sounds Spec.SoundSpec Spec.Parts Spec.Flow Spec.Branches Spec.Feedback
  Proof.OrderP Proof.SoundsP Proof.SoundsP2 Proof.SoundsP3 Proof.PartsP Proof.FlowP Proof.FlowP2 Proof.LevelP Proof.LevelP2 Proof.FeedbackP.
Import ListNotations.

Lemma leads_through F t s a : leads F s a -> leads (fun x y => F x y /\ y <> t) s a \/ leads F t a.
Proof.
  induction 1 as [a|a b c _ IH E]; [left; constructor|]. destruct IH as [IH|IH]; [|right; econstructor; eassumption].
  destruct (Nat.eq_dec c t) as [->|N]; [right; constructor|left; econstructor; [exact IH|split; assumption]].
Qed.
Lemma leads_mono (F G : nat -> nat -> Prop) s a : (forall x y, F x y -> G x y) -> leads F s a -> leads G s a.
Proof. intro H. induction 1 as [a|a b c _ IH E]; [constructor|econstructor; [exact IH|apply H, E]]. Qed.
Lemma precedes_trans l a b c : NoDup l -> precedes l a b -> precedes l b c -> precedes l a c.
Proof.
  intros ND (l1 & l2 & l3 & Q) (m1 & m2 & m3 & R).
  assert (K : l1 ++ a :: l2 = m1 /\ l3 = m2 ++ c :: m3).
  { assert (QQ : l = (l1 ++ a :: l2) ++ b :: l3) by (rewrite Q, <- app_assoc; reflexivity).
    rewrite R in QQ. assert (N1 : ~ In b m1 /\ ~ In b (l1 ++ a :: l2)).
    { split; intro H.
      - rewrite R in ND. apply NoDup_remove_2 in ND. apply ND, in_or_app. left. exact H.
      - rewrite Q in ND. change (a :: l2 ++ b :: l3) with ((a :: l2) ++ b :: l3) in ND. rewrite app_assoc in ND. apply NoDup_remove_2 in ND. apply ND, in_or_app. left. exact H. }
    clear -QQ N1. destruct N1 as [N1 N2]. revert QQ N2. generalize (l1 ++ a :: l2). revert N1. induction m1 as [|d m1 IH]; intros N1 [|d' k] QQ N2; cbn in QQ.
    - injection QQ as QQ. split; [reflexivity|symmetry; exact QQ].
    - injection QQ as -> _. exfalso. apply N2. left. reflexivity.
    - injection QQ as -> _. exfalso. apply N1. left. reflexivity.
    - injection QQ as -> QQ. destruct (IH (fun H => N1 (or_intror H)) k QQ (fun H => N2 (or_intror H))) as [-> ->]. split; reflexivity. }
  destruct K as [K ->]. exists l1, (l2 ++ b :: m2), m3. rewrite Q, <- app_assoc. reflexivity.
Qed.

Definition open_graph (back : nat -> nat -> bool) (g : graph) : graph := mkGraph (g_nodes g) (filter (fun e => negb (back (fst e) (snd e))) (g_edges g)).
Lemma open_In back g a b : In (a, b) (g_edges (open_graph back g)) <-> In (a, b) (g_edges g) /\ back a b = false.
Proof. unfold open_graph. cbn [g_edges]. rewrite filter_In. cbn [fst snd]. rewrite negb_true_iff. reflexivity. Qed.
Lemma remove_first_filter f a b l : f (a, b) = true -> filter f (remove_first (is_edge a b) l) = remove_first (is_edge a b) (filter f l).
Proof.
  intro Fab. induction l as [|e l IH]; [reflexivity|]. cbn [remove_first filter]. destruct (is_edge a b e) eqn:Q.
  - apply is_edge_true in Q as Q'. subst e. rewrite Fab. cbn [remove_first]. rewrite Q. reflexivity.
  - destruct (f e) eqn:K; cbn [filter remove_first]; rewrite K; [|exact IH]. rewrite Q, IH. reflexivity.
Qed.
Lemma remove_first_gone f a b l : f (a, b) = false -> filter f (remove_first (is_edge a b) l) = filter f l.
Proof.
  intro Fab. induction l as [|e l IH]; [reflexivity|]. cbn [remove_first filter]. destruct (is_edge a b e) eqn:Q.
  - apply is_edge_true in Q. subst e. rewrite Fab. reflexivity.
  - cbn [filter]. rewrite IH. reflexivity.
Qed.
Lemma remove_first_none a b l : ~ In (a, b) l -> remove_first (is_edge a b) l = l.
Proof.
  induction l as [|e l IH]; intro H; [reflexivity|]. cbn [remove_first]. destruct (is_edge a b e) eqn:Q.
  - apply is_edge_true in Q. subst e. exfalso. apply H. left. reflexivity.
  - rewrite IH; [reflexivity|]. intro K. apply H. right. exact K.
Qed.

Section Sound.
Variable U : Type. Variable up : U -> f32 -> U. Variable uo : U -> res (f32 * U).
Local Notation heap := (heap U). Local Notation block := (block U).
Local Notation bprime := (b_prime U up). Local Notation bproc := (b_process U uo).
Local Notation cs_step := (cs_step U up uo).

Lemma with_graph_graph s g s' : cs_with_graph s g = Ok s' -> cs_graph s' = g.
Proof. unfold cs_with_graph. destruct (process_order g (cs_ig s) (cs_og s)); [|discriminate]. intro H. injection H as <-. reflexivity. Qed.
Lemma other_edges s h o y s' h' : edits_order o = false -> cs_step (s, h) o = Ok (y, (s', h')) -> g_edges (cs_graph s') = g_edges (cs_graph s).
Proof.
  intros E H. destruct o; try discriminate; cbn in H.
  - destruct (cs_process U up uo s h x) as [[z h1]|]; [|discriminate]. cbn in H. injection H as _ <- _. reflexivity.
  - injection H as _ <- _. reflexivity.
  - injection H as _ <- _. reflexivity.
  - injection H as _ <- _. reflexivity.
  - injection H as _ <- _. reflexivity.
  - injection H as _ <- _. reflexivity.
  - injection H as _ <- _. reflexivity.
  - injection H as _ <- _. reflexivity.
Qed.
Lemma opened_edges back h gi go ops : forall ys s h1 ys' s' h2,
  run_res cs_step (cs_new U h gi go) ops = Ok (ys, (s, h1)) -> run_res cs_step (cs_new U h gi go) (map (opened back) ops) = Ok (ys', (s', h2)) ->
  g_edges (cs_graph s') = g_edges (open_graph back (cs_graph s)).
Proof.
  set (f := fun e : nat * nat => negb (back (fst e) (snd e))).
  induction ops as [|o ops IH] using rev_ind; intros ys s h1 ys' s' h2 R R'.
  - assert (K : s = fst (cs_new U h gi go)) by (cbn in R; injection R; intros; subst; reflexivity).
    assert (K' : s' = fst (cs_new U h gi go)) by (cbn in R'; injection R'; intros; subst; reflexivity). rewrite K, K'. reflexivity.
  - rewrite map_app in R'. cbn [map] in R'. apply snoc_run in R, R'. destruct R as (zs & [s1 k1] & y & R1 & R2), R' as (zs' & [s2 k2] & y' & R1' & R2').
    specialize (IH _ _ _ _ _ _ R1 R1'). unfold open_graph in *. cbn [g_edges] in *. fold f in IH |- *. destruct (edits_order o) eqn:Eo.
    + destruct o as [| | | | | |a b|a b| |]; try discriminate; cbn in R2.
      * destruct (cs_add_connection s1 a b) as [s3|] eqn:A; [|discriminate]. cbn in R2. injection R2 as _ <- _.
        unfold cs_add_connection, g_update_edge in A.
        assert (EE : g_edges (cs_graph s3) = if g_find_edge (cs_graph s1) a b then g_edges (cs_graph s1) else (a, b) :: g_edges (cs_graph s1)).
        { destruct (g_find_edge (cs_graph s1) a b); cbn [bind] in A; [apply with_graph_graph in A; rewrite A; reflexivity|].
          destruct (_ && _)%bool in A; [|discriminate]. cbn [bind] in A. apply with_graph_graph in A. rewrite A. reflexivity. }
        rewrite EE. clear A EE. cbn [opened] in R2'. destruct (back a b) eqn:B; cbn in R2'.
        -- unfold cs_remove_connection in R2'. destruct (cs_with_graph s2 (g_remove_edge (cs_graph s2) a b)) as [s4|] eqn:A; [|discriminate]. cbn in R2'. injection R2' as _ <- _.
           apply with_graph_graph in A. rewrite A. unfold g_remove_edge. cbn [g_edges]. rewrite IH.
           rewrite remove_first_none by (rewrite filter_In; unfold f; cbn [fst snd]; rewrite B; intros [_ K]; discriminate K).
           destruct (g_find_edge (cs_graph s1) a b); [reflexivity|]. cbn [filter]. assert (Fa : f (a, b) = false) by (unfold f; cbn [fst snd]; rewrite B; reflexivity). rewrite Fa. reflexivity.
        -- destruct (cs_add_connection s2 a b) as [s4|] eqn:A; [|discriminate]. cbn in R2'. injection R2' as _ <- _. unfold cs_add_connection, g_update_edge in A.
           assert (EE : g_edges (cs_graph s4) = if g_find_edge (cs_graph s2) a b then g_edges (cs_graph s2) else (a, b) :: g_edges (cs_graph s2)).
           { destruct (g_find_edge (cs_graph s2) a b); cbn [bind] in A; [apply with_graph_graph in A; rewrite A; reflexivity|].
             destruct (_ && _)%bool in A; [|discriminate]. cbn [bind] in A. apply with_graph_graph in A. rewrite A. reflexivity. }
           rewrite EE. assert (FE : g_find_edge (cs_graph s2) a b = g_find_edge (cs_graph s1) a b).
           { apply eq_true_iff_eq. rewrite !find_edge_In, IH, filter_In. unfold f. cbn [fst snd]. rewrite B. cbn. tauto. }
           rewrite FE, IH. destruct (g_find_edge (cs_graph s1) a b); [reflexivity|]. cbn [filter]. assert (Fa : f (a, b) = true) by (unfold f; cbn [fst snd]; rewrite B; reflexivity). rewrite Fa. reflexivity.
      * cbn [opened] in R2'. cbn in R2'. unfold cs_remove_connection in R2, R2'.
        destruct (cs_with_graph s1 (g_remove_edge (cs_graph s1) a b)) as [s3|] eqn:A; [|discriminate]. cbn in R2. injection R2 as _ <- _.
        destruct (cs_with_graph s2 (g_remove_edge (cs_graph s2) a b)) as [s4|] eqn:A'; [|discriminate]. cbn in R2'. injection R2' as _ <- _.
        apply with_graph_graph in A, A'. rewrite A, A'. unfold g_remove_edge. cbn [g_edges]. rewrite IH. destruct (f (a, b)) eqn:Fa.
        -- symmetry. apply remove_first_filter, Fa.
        -- rewrite (remove_first_gone f a b _ Fa). apply remove_first_none. rewrite filter_In. rewrite Fa. intros [_ K]. discriminate K.
    + assert (Oo : opened back o = o) by (destruct o; try reflexivity; discriminate). rewrite Oo in R2'.
      rewrite (other_edges _ _ _ _ _ _ Eo R2), (other_edges _ _ _ _ _ _ Eo R2'). exact IH.
Qed.

(** with_feedback, in terms of the graph *)
Lemma with_feedback_graph ops s back : ginv ops s -> with_feedback (blocks ops) (connected ops) back ->
  process_order (cs_graph s) 0 1 = process_order (open_graph back (cs_graph s)) 0 1.
Proof.
  intros (_ & _ & LN & W & NE & CE) WF. apply (feedback_order (cs_graph s) back).
  intros a t Hat B. destruct (WF a t (proj1 (CE a t) Hat) B) as (Na & (p & P1 & P2) & D). split; [exact Na|].
  assert (EQ : forall x y, In (x, y) (g_edges (open_graph back (cs_graph s))) <-> forward (connected ops) back x y) by (intros x y; rewrite open_In, CE; reflexivity).
  split; [exists p; apply EQ; split; assumption|]. intros z (Z1 & Z2) K. apply (D z).
  - rewrite <- LN. split; [exact Z1|]. intros x Hx. apply (Z2 x), EQ, Hx.
  - revert K. apply leads_mono. intros x y [K1 K2]. split; [apply EQ, K1|exact K2].
Qed.
Lemma order_unchanged h gi go pre e s s' back : let ops := pre ++ [e] in
  reaches_state U up uo h gi go ops s -> reaches_state U up uo h gi go (map (opened back) ops) s' -> edits_order e = true ->
  with_feedback (blocks ops) (connected ops) back -> cs_order s = cs_order s'.
Proof.
  intros ops (ys & h1 & R) (ys' & h2 & R') He WF.
  destruct (history_ginv U up uo _ _ _ _ _ _ _ R) as [G O]. specialize (O _ _ eq_refl He).
  destruct (history_ginv U up uo _ _ _ _ _ _ _ R') as [G' O']. unfold ops in O'. rewrite map_app in O'. cbn [map] in O'.
  specialize (O' (map (opened back) pre) (opened back e) eq_refl). assert (He' : edits_order (opened back e) = true) by (destruct e; try discriminate; [|reflexivity]; cbn [opened]; destruct (back a b); reflexivity). specialize (O' He').
  rewrite (with_feedback_graph ops s back G WF) in O.
  assert (GE : cs_graph s' = open_graph back (cs_graph s)).
  { pose proof (opened_edges back _ _ _ _ _ _ _ _ _ _ R R') as EE.
    pose proof (nodes_of U up uo _ _ _ _ _ _ _ R) as N. pose proof (nodes_of U up uo _ _ _ _ _ _ _ R') as N'.
    assert (NN : node_handles h (map (opened back) ops) = node_handles h ops).
    { unfold node_handles. do 2 f_equal. unfold moved_in. clear. induction ops as [|o ops IH]; [reflexivity|]. cbn [map flat_map]. rewrite IH. f_equal. destruct o; try reflexivity. cbn [opened]. destruct (back a b); reflexivity. }
    rewrite NN, <- N in N'. destruct (cs_graph s') as [n l]. cbn [g_nodes g_edges] in *. subst n l. reflexivity. }
  rewrite GE in O'. congruence.
Qed.
(** every block is processed, and each forward input first, if the forward connections are levelled *)
Lemma feedback_levelled h gi go pre e s back : let ops := pre ++ [e] in reaches_state U up uo h gi go ops s -> edits_order e = true ->
  with_feedback (blocks ops) (connected ops) back -> levelled (blocks ops) (forward (connected ops) back) -> (forall a, ~ connected ops a 0) ->
  (forall x, x < blocks ops -> In x (cs_order s)) /\
  (forall a b, connected ops a b -> if back a b then precedes (cs_order s) b a else precedes (cs_order s) a b).
Proof.
  intros ops RS He WF (T & N1 & dep & D & p & H0 & HS & HD & HO) N0.
  pose proof (order_wf U up uo h gi go pre e s RS He) as (mid & OQ & ON & _).
  destruct RS as (ys0 & h0 & R0). destruct (history_ginv U up uo _ _ _ _ _ _ _ R0) as [G O]. specialize (O _ _ eq_refl He).
  pose proof G as (_ & _ & LN & W & NE & CE). fold ops in LN, CE.
  rewrite (with_feedback_graph ops s back G WF) in O. set (g := open_graph back (cs_graph s)) in *.
  assert (CF : forall x y, In (x, y) (g_edges g) <-> forward (connected ops) back x y) by (intros x y; unfold g; rewrite open_In, CE; reflexivity).
  assert (W' : gwf g) by (intros a b H; apply open_In in H; apply (W a b), H).
  assert (NE' : NoDup (g_edges g)) by (apply NoDup_filter, NE).
  assert (LN' : length (g_nodes g) = blocks ops) by exact LN.
  assert (T' : forall a a' b, b <> 1 -> In (a, b) (g_edges g) -> In (a', b) (g_edges g) -> a = a') by (intros a a' b Nb A B; apply (T a a' b Nb); apply CF; assumption).
  assert (N1' : forall b, ~ In (1, b) (g_edges g)) by (intros b A; apply (N1 b), CF, A).
  assert (H0' : forall x, In x (externals_in g) -> x <> 1 -> dep x = 0).
  { intros x Hx. apply externals_In in Hx. rewrite LN' in Hx. apply H0. split; [apply Hx|]. intros a Ha. apply (proj2 Hx a), CF, Ha. }
  assert (HS' : forall a b, In (a, b) (g_edges g) -> b <> 1 -> dep b = S (dep a)) by (intros a b A; apply HS, CF, A).
  assert (SB : forall x, sourced g x -> x < blocks ops).
  { intros x (z & Hz & K). rewrite <- LN'. destruct K as [a|a b c _ K]; [apply externals_In in Hz; apply Hz|apply (W' _ _ K)]. }
  assert (HD' : forall x, sourced g x -> x <> 1 -> dep x <= D) by (intros x Hx; apply HD, SB, Hx).
  assert (HO' : forall a, In (a, 1) (g_edges g) -> a = p \/ D <= S (dep a)) by (intros a A; apply HO, CF, A).
  assert (ALL : forall x, x <> 1 -> x < length (g_nodes g) -> sourced g x).
  { intros x. apply (level_sourced g W' N1' dep HS' (S (dep x)) x). lia. }
  assert (CPL : forall x, x < blocks ops -> In x (cs_order s)).
  { intros x Hx. destruct (Nat.eq_dec x 1) as [->|Nx]; [rewrite OQ; right; apply in_or_app; right; left; reflexivity|].
    apply (level_complete g W' NE' T' N1' dep D p H0' HS' HD' HO' _ O). apply ALL; [exact Nx|rewrite LN'; exact Hx]. }
  assert (TOP : forall a b, forward (connected ops) back a b -> precedes (cs_order s) a b).
  { intros a b Hab. assert (A : In (a, b) (g_edges g)) by (apply CF, Hab).
    apply (level_topo g W' NE' T' N1' dep D p H0' HS' HD' HO' _ O a b A).
    - apply ALL; [intros ->; exact (N1' b A)|apply (W' _ _ A)].
    - intros ->. apply (N0 a), Hab. }
  split; [exact CPL|]. intros a b Hab. destruct (back a b) eqn:B; [|apply TOP; split; assumption].
  destruct (WF a b Hab B) as (Nab & (q & Hq) & DM).
  assert (La : a < blocks ops) by (apply CE in Hab; rewrite <- LN; apply (W _ _ Hab)).
  assert (FA : a = 1 \/ exists z, source (blocks ops) (forward (connected ops) back) z /\ leads (forward (connected ops) back) z a).
  { destruct (Nat.eq_dec a 1) as [->|Na]; [left; reflexivity|right]. destruct (ALL a Na ltac:(rewrite LN'; exact La)) as (z & Hz & K). exists z. split.
    - apply externals_In in Hz. rewrite LN' in Hz. split; [apply Hz|]. intros x Hx. apply (proj2 Hz x), CF, Hx.
    - clear -K CF. induction K as [a|a b c _ IH E]; [constructor|]. econstructor; [exact IH|]. apply CF, E. }
  destruct FA as [->|(z & Hz & K)].
  - (* the output gain comes last *)
    destruct (split_at _ _ (CPL b ltac:(apply CE in Hab; rewrite <- LN; apply (W _ _ Hab)))) as (l1 & l2 & Q).
    destruct (exists_last (l := b :: l2) ltac:(discriminate)) as (l3 & c & Q3).
    assert (c = 1) as ->. { rewrite Q3, OQ, app_comm_cons, app_assoc in Q. apply app_inj_tail in Q. symmetry. apply Q. }
    destruct l3 as [|d l3]; [cbn in Q3; injection Q3 as -> _; congruence|]. cbn in Q3. injection Q3 as <- ->. exists l1, l3, []. exact Q.
  - destruct (leads_through _ b _ _ K) as [K'|K']; [destruct (DM z Hz K')|]. clear -K' Nab TOP ON.
    assert (P : b = a \/ precedes (cs_order s) b a).
    { induction K' as [a|a b c _ IH E]; [left; reflexivity|]. right. destruct (Nat.eq_dec b a) as [Q|N0].
      - subst b. apply TOP, E.
      - destruct (IH ltac:(congruence)) as [->|IH']; [congruence|]. exact (precedes_trans _ _ _ _ ON IH' (TOP _ _ E)). }
    destruct P as [P|P]; [congruence|exact P].
Qed.
(** so feedback comes one call later, everything else at once *)
Lemma feedback_flow h gi go pre e s hp bs xs ys hp' back : let ops := pre ++ [e] in reaches_state U up uo h gi go ops s -> edits_order e = true ->
  with_feedback (blocks ops) (connected ops) back -> levelled (blocks ops) (forward (connected ops) back) -> (forall a, ~ connected ops a 0) ->
  cs_paused s = false -> cs_muted s = false -> NoDup (node_handles h ops) ->
  map (get_mut U hp) (node_handles h ops) = map Some bs -> xs <> [] ->
  run_res (cs_process U up uo s) hp xs = Ok (ys, hp') ->
  exists (P Q : nat -> list nat) (out : nat -> nat -> f32),
    (forall m, NoDup (P m) /\ forall a, In a (P m) <-> connected ops a m /\ back a m = false) /\
    (forall m, NoDup (Q m) /\ forall a, In a (Q m) <-> connected ops a m /\ back a m = true) /\
    ys = map (out 1) (seq 0 (length xs)) /\
    forall m b, nth_error bs m = Some b ->
      outputs (run_res (cycle bprime bproc) b (map (fed_back P Q xs out m) (seq 0 (length xs)))) = Ok (map (out m) (seq 0 (length xs))).
Proof.
  intros ops RS He WF LV N0 Pa Mu ND GM NX R. destruct (feedback_levelled h gi go pre e s back RS He WF LV N0) as [CPL TOP]. fold ops in CPL, TOP.
  pose proof RS as (ys0 & h0 & R0). destruct (proj1 (history_ginv U up uo _ _ _ _ _ _ _ R0)) as (_ & _ & LN & W & _ & CE). fold ops in LN, CE.
  set (E := fun a b => g_find_edge (cs_graph s) a b).
  assert (HE : forall a b, E a b = true <-> connected ops a b) by (intros; unfold E; rewrite find_edge_In; apply CE).
  destruct (dataflow U up uo h gi go ops s E hp bs xs ys hp' RS) as (out & Y & F); try assumption.
  { exists e. split; [apply in_or_app; right; left; reflexivity|exact He]. }
  destruct (order_wf U up uo h gi go pre e s RS He) as (mid & OQ & ON & _).
  assert (BL : forall a b, connected ops a b -> a < blocks ops) by (intros a b H; apply CE in H; rewrite <- LN; apply (W _ _ H)).
  exists (fun m => filter (fun a => E a m && negb (back a m)) (cs_order s))%bool, (fun m => filter (fun a => E a m && back a m) (cs_order s))%bool, out. split; [|split; [|split]].
  - intro m. split; [apply NoDup_filter, ON|]. intro a. rewrite filter_In, andb_true_iff, negb_true_iff, HE. split; [tauto|]. intro H. split; [apply CPL, (BL a m), H|exact H].
  - intro m. split; [apply NoDup_filter, ON|]. intro a. rewrite filter_In, andb_true_iff, HE. split; [tauto|]. intro H. split; [apply CPL, (BL a m), H|exact H].
  - exact Y.
  - intros m b Hb. assert (Lm : m < blocks ops).
    { rewrite <- LN, (nodes_of U up uo _ _ _ _ _ _ _ R0). pose proof (f_equal (@length _) GM) as K. rewrite !map_length in K. rewrite K. apply nth_error_Some. congruence. }
    destruct (split_at _ _ (CPL m Lm)) as (la & lb & Q). destruct (F la m lb Q NX) as (b' & B & K). assert (b' = b) as -> by congruence. rewrite <- K. f_equal. f_equal. apply map_ext. intro k.
    assert (Z1 : forall c, In c (m :: lb) -> E c m = true -> back c m = true).
    { intros c Hc Ec. apply HE in Ec. destruct (back c m) eqn:B2; [reflexivity|]. exfalso. pose proof (TOP c m Ec) as T. rewrite B2 in T. exact (not_late _ la m lb c ON Q T Hc). }
    assert (Z2 : forall c, In c la -> E c m = true -> back c m = false).
    { intros c Hc Ec. apply HE in Ec. destruct (back c m) eqn:B2; [|reflexivity]. exfalso. pose proof (TOP c m Ec) as T. rewrite B2 in T.
      destruct (in_split _ _ Hc) as (c1 & c2 & ->). rewrite <- app_assoc in Q. cbn [app] in Q.
      apply (not_late _ c1 c (c2 ++ m :: lb) m ON Q T). right. apply in_or_app. right. left. reflexivity. }
    unfold arrivals, fed_back.
    assert (QP : filter (fun a => E a m && negb (back a m))%bool (cs_order s) = filter (fun a => E a m) la).
    { rewrite Q, filter_app. rewrite (filter_none _ (m :: lb)).
      - rewrite app_nil_r. apply filter_ext_in. intros c Hc. destruct (E c m) eqn:Ec; [|reflexivity]. rewrite (Z2 c Hc Ec). reflexivity.
      - intros c Hc. destruct (E c m) eqn:Ec; [|reflexivity]. rewrite (Z1 c Hc Ec). reflexivity. }
    assert (QQ : filter (fun a => E a m && back a m)%bool (cs_order s) = filter (fun a => E a m) (m :: lb)).
    { rewrite Q, filter_app. rewrite (filter_none _ la).
      - apply filter_ext_in. intros c Hc. destruct (E c m) eqn:Ec; [|reflexivity]. rewrite (Z1 c Hc Ec). reflexivity.
      - intros c Hc. destruct (E c m) eqn:Ec; [|reflexivity]. rewrite (Z2 c Hc Ec). reflexivity. }
    rewrite QP, QQ. reflexivity.
Qed.
End Sound.
