(** * Properties of blocks that survive whatever is done with the sounds that hold them *)
From Coq Require Import ZArith List Bool Lia Arith.
From Flocq Require Import IEEE754.BinarySingleNaN.
From Verif Require Import Model.Floats Model.Modifiers Model.Sounds Spec.SoundSpec Spec.Parts Proof.GenericP Proof.OrderP Proof.SoundsP Proof.SoundsP2 Proof.SoundsP3.
Import ListNotations.

Section Heap.
Variable U : Type. Variable up : U -> f32 -> U. Variable uo : U -> res (f32 * U).
Variable P : U -> Prop.
Variable pan : Prop.                        (* may a user block panic? *)
Hypothesis P_prime : forall u x, P u -> P (up u x).
Hypothesis P_process : forall u, P u -> match uo u with Ok (_, u') => P u' | Panic => pan end.
Local Notation bprime := (b_prime U up). Local Notation bproc := (b_process U uo).

Definition gb_ok (b : gainblock) : Prop := sb_gc b = 1%Z /\ sb_mc b = 1%Z /\ sb_ic b = 1%Z.
Definition bP (b : block U) : Prop := match b with Gainer _ g => gb_ok g | User _ u => P u end.
Definition hP (h : heap U) : Prop := forall p c, nth_error h p = Some c -> bP (c_block U c).

Lemma bP_prime b x : bP b -> bP (bprime b x).
Proof. destruct b as [g|u]; cbn; [exact (fun H => H)|apply P_prime]. Qed.
Lemma bP_process b : bP b -> match bproc b with Ok (_, b') => bP b' | Panic => pan end.
Proof.
  destruct b as [g|u]; cbn.
  - destruct g as [g gc mo mc i ic inp]. unfold gb_ok. cbn. intros (-> & -> & ->). repeat split.
  - intro H. specialize (P_process u H). destruct (uo u) as [[y u']|]; exact P_process.
Qed.
Lemma hP_get h p b : hP h -> get_mut U h p = Some b -> bP b.
Proof. intros H E. apply get_mut_spec in E. destruct E as (_ & c & E & <-). exact (H p c E). Qed.
Lemma hP_put h p b : hP h -> bP b -> hP (put U h p b).
Proof.
  intros H B q c. unfold put. destruct (Nat.eq_dec p q) as [->|N].
  - rewrite nth_upd_same. destruct (nth_error h q); [|discriminate]. cbn. intro E. injection E as <-. exact B.
  - rewrite nth_upd_other by exact N. apply H.
Qed.
Lemma hP_incr d h p : hP h -> hP (incr U d h p).
Proof.
  intros H q c. unfold incr. destruct (Nat.eq_dec p q) as [->|N].
  - rewrite nth_upd_same. destruct (nth_error h q) eqn:E; [|discriminate]. cbn. intro E'. injection E' as <-. exact (H q _ E).
  - rewrite nth_upd_other by exact N. apply H.
Qed.
Lemma hP_alloc h b : hP h -> bP b -> hP (fst (alloc U h b)).
Proof.
  intros H B q c. cbn. destruct (Nat.lt_ge_cases q (length h)) as [L|L].
  - rewrite nth_error_app1 by exact L. apply H.
  - rewrite nth_error_app2 by exact L. destruct (q - length h) as [|k]; cbn; [intro E; injection E as <-; exact B|destruct k; discriminate].
Qed.

(** ** SimpleSound: every operation *)
Lemma chain_hP ms : forall h x, hP h -> match ss_chain U up uo h ms x with Ok (_, h') => hP h' | Panic => pan end.
Proof.
  induction ms as [|m r IH]; intros h x H; cbn [ss_chain]; [exact H|].
  destruct (get_mut U h m) as [b|] eqn:E; [|apply IH, H].
  pose proof (bP_process (bprime b x) (bP_prime b x (hP_get h m b H E))) as K.
  destruct (bproc (bprime b x)) as [[y b']|]; [|exact K]. cbn [bind]. apply IH, hP_put; assumption.
Qed.
Lemma ss_process_hP s h x : hP h -> match ss_process U up uo s h x with Ok (_, h') => hP h' | Panic => pan end.
Proof.
  intro H. unfold ss_process. destruct (ss_paused s); [exact H|].
  assert (K : match (match get_mut U h (ss_gen s) with
                     | Some b => do (y, b') <- bproc (bprime b (fmul x (ss_in s))); Ok (y, put U h (ss_gen s) b')
                     | None => Ok (f0, h)
                     end) with Ok (_, h') => hP h' | Panic => pan end).
  { destruct (get_mut U h (ss_gen s)) as [b|] eqn:E; [|exact H].
    pose proof (bP_process (bprime b (fmul x (ss_in s))) (bP_prime b _ (hP_get h _ b H E))) as K.
    destruct (bproc (bprime b (fmul x (ss_in s)))) as [[y b']|]; [|exact K]. cbn [bind]. apply hP_put; assumption. }
  destruct (match get_mut U h (ss_gen s) with
            | Some b => do (y, b') <- bproc (bprime b (fmul x (ss_in s))); Ok (y, put U h (ss_gen s) b')
            | None => Ok (f0, h)
            end) as [[o h1]|]; [|exact K]. cbn [bind].
  pose proof (chain_hP (ss_mods s) h1 o K) as L. destruct (ss_chain U up uo h1 (ss_mods s) o) as [[o2 h2]|]; exact L.
Qed.
Lemma ss_step_hP s h o : hP h -> match ss_step U up uo (s, h) o with Ok (_, (_, h')) => hP h' | Panic => pan end.
Proof.
  intro H. destruct o; cbn [ss_step]; try exact H; try (apply hP_incr, H).
  pose proof (ss_process_hP s h x H) as K. destruct (ss_process U up uo s h x) as [[y h']|]; exact K.
Qed.
Lemma ss_history_hP ops : forall s h, hP h -> match run_res (ss_step U up uo) (s, h) ops with Ok (_, (_, h')) => hP h' | Panic => pan end.
Proof.
  induction ops as [|o r IH]; intros s h H; cbn [run_res]; [exact H|].
  pose proof (ss_step_hP s h o H) as K. destruct (ss_step U up uo (s, h) o) as [[y [s' h']]|]; [|exact K]. cbn [bind].
  specialize (IH s' h' K). destruct (run_res (ss_step U up uo) (s', h') r) as [[ys [s2 h2]]|]; exact IH.
Qed.

(** ** ComplexSound: what is in memory stays so as long as nothing panics *)
Lemma prime_node_hP g h n x h' : hP h -> prime_node U up g h n x = Ok h' -> hP h' /\ (forall p, count U h' p = count U h p).
Proof.
  intros H. unfold prime_node, node_mut. destruct (nth_error (g_nodes g) n) as [p|]; [|discriminate]. cbn [unwrap bind].
  destruct (get_mut U h p) as [b|] eqn:E; [|discriminate]. cbn [unwrap bind]. intro K. injection K as <-.
  split; [apply hP_put; [exact H|]; apply bP_prime, (hP_get h p b H E)|intro q; apply count_put].
Qed.
Lemma prime_nodes_hP g ns : forall h x h', hP h -> prime_nodes U up g h ns x = Ok h' -> hP h' /\ (forall p, count U h' p = count U h p).
Proof.
  induction ns as [|n r IH]; intros h x h' H; cbn [prime_nodes]; [intro E; injection E as <-; auto|].
  destruct (prime_node U up g h n x) as [h1|] eqn:E; [|discriminate]. cbn [bind]. intro K.
  destruct (prime_node_hP g h n x h1 H E) as [H1 C1]. destruct (IH h1 x h' H1 K) as [H2 C2]. split; [exact H2|]. intro q. rewrite C2. apply C1.
Qed.
Lemma cs_run_hP g order : forall h o y h', hP h -> cs_run U up uo g h order o = Ok (y, h') -> hP h' /\ (forall p, count U h' p = count U h p).
Proof.
  induction order as [|n r IH]; intros h o y h' H; cbn [cs_run]; [intro E; injection E as <- <-; auto|].
  unfold node_mut. destruct (nth_error (g_nodes g) n) as [p|]; [|discriminate]. cbn [unwrap bind].
  destruct (get_mut U h p) as [b|] eqn:E; [|discriminate]. cbn [unwrap bind].
  pose proof (bP_process b (hP_get h p b H E)) as K. destruct (bproc b) as [[z b']|]; [|discriminate]. cbn [bind].
  destruct (prime_nodes U up g (put U h p b') (neighbors g n) z) as [h1|] eqn:E1; [|discriminate]. cbn [bind]. intro E2.
  destruct (prime_nodes_hP g _ _ z h1 (hP_put h p b' H K) E1) as [H1 C1]. destruct (IH h1 z y h' H1 E2) as [H2 C2].
  split; [exact H2|]. intro q. rewrite C2, C1. apply count_put.
Qed.
Lemma cs_process_hP s h x y h' : hP h -> cs_process U up uo s h x = Ok (y, h') -> hP h' /\ (forall p, count U h' p = count U h p).
Proof.
  intro H. unfold cs_process. destruct (cs_paused s); [intro E; injection E as <- <-; auto|].
  destruct (prime_node U up (cs_graph s) h (cs_ig s) x) as [h1|] eqn:E1; [|discriminate]. cbn [bind].
  destruct (cs_run U up uo (cs_graph s) h1 (cs_order s) f0) as [[o h2]|] eqn:E2; [|discriminate]. cbn [bind]. intro E. injection E as <- <-.
  destruct (prime_node_hP _ _ _ _ _ H E1) as [H1 C1]. destruct (cs_run_hP _ _ _ _ _ _ H1 E2) as [H2 C2]. split; [exact H2|]. intro q. rewrite C2. apply C1.
Qed.
Lemma cs_step_hP s h o y s' h' : hP h -> cs_step U up uo (s, h) o = Ok (y, (s', h')) -> hP h'.
Proof.
  intros H E. destruct o; cbn [cs_step] in E; try (injection E as <- <- <-; first [exact H|apply hP_incr, H]).
  - destruct (cs_process U up uo s h x) as [[z h1]|] eqn:E1; [|discriminate]. cbn [bind] in E. injection E as <- <- <-. apply (cs_process_hP _ _ _ _ _ H E1).
  - destruct (cs_add_connection s a b) as [s1|]; [|discriminate]. cbn [bind] in E. injection E as <- <- <-. exact H.
  - destruct (cs_remove_connection s a b) as [s1|]; [|discriminate]. cbn [bind] in E. injection E as <- <- <-. exact H.
Qed.
Lemma cs_history_hP ops : forall s h ys s' h', hP h -> run_res (cs_step U up uo) (s, h) ops = Ok (ys, (s', h')) -> hP h'.
Proof.
  induction ops as [|o r IH]; intros s h ys s' h' H; cbn [run_res]; [intro E; injection E as <- <- <-; exact H|].
  destruct (cs_step U up uo (s, h) o) as [[y [s1 h1]]|] eqn:E; [|discriminate]. cbn [bind].
  destruct (run_res (cs_step U up uo) (s1, h1) r) as [[ys1 [s2 h2]]|] eqn:E1; [|discriminate]. cbn [bind]. intro K. injection K as <- <- <-.
  exact (IH s1 h1 ys1 s2 h2 (cs_step_hP s h o y s1 h1 H E) E1).
Qed.
Lemma cs_new_hP h gi go : hP h -> hP (snd (cs_new U h gi go)).
Proof.
  intro H. unfold cs_new. cbn [alloc g_add_node snd]. change (hP (fst (alloc U (fst (alloc U h (Gainer U (gain_block (to32 gi))))) (Gainer U (gain_block (to32 go)))))).
  apply hP_alloc; [apply hP_alloc; [exact H|]|]; cbn; unfold gb_ok; auto.
Qed.

(** ** ... and nothing panics if no block is shared and every connection is between existing blocks *)
Hypothesis no_pan : ~ pan.
Definition nodes_ok (g : graph) (h : heap U) : Prop := forall p, In p (g_nodes g) -> count U h p = 1%Z.
Lemma nodes_count g h h' : (forall p, count U h' p = count U h p) -> nodes_ok g h -> nodes_ok g h'.
Proof. intros C N p Hp. rewrite C. apply N, Hp. Qed.
Lemma node_mut_ok g h n : nodes_ok g h -> n < length (g_nodes g) -> exists p b, node_mut U g h n = Ok (p, b) /\ get_mut U h p = Some b.
Proof.
  intros N L. unfold node_mut. destruct (nth_error (g_nodes g) n) as [p|] eqn:E; [|apply nth_error_None in E; lia]. cbn [unwrap bind].
  pose proof (N p (nth_error_In _ _ E)) as C. unfold get_mut. unfold count in C. destruct (nth_error h p) as [c|] eqn:E1; [|discriminate].
  exists p, (c_block U c). rewrite E1. rewrite C. cbn. auto.
Qed.
Lemma prime_node_ok g h n x : nodes_ok g h -> n < length (g_nodes g) -> exists h', prime_node U up g h n x = Ok h'.
Proof. intros N L. unfold prime_node. destruct (node_mut_ok g h n N L) as (p & b & -> & _). cbn [bind]. eauto. Qed.
Lemma prime_nodes_ok g ns : (forall n, In n ns -> n < length (g_nodes g)) -> forall h x, hP h -> nodes_ok g h -> exists h', prime_nodes U up g h ns x = Ok h'.
Proof.
  induction ns as [|n r IH]; intros L h x H N; cbn [prime_nodes]; [eauto|].
  destruct (prime_node_ok g h n x N (L n (or_introl eq_refl))) as [h1 E]. rewrite E. cbn [bind].
  destruct (prime_node_hP g h n x h1 H E) as [H1 C1]. apply IH; [intros k Hk; apply L; right; exact Hk|exact H1|exact (nodes_count g h h1 C1 N)].
Qed.
Lemma neighbors_range g n k : gwf g -> In k (neighbors g n) -> k < length (g_nodes g).
Proof.
  intros W H. unfold neighbors in H. apply in_map_iff in H. destruct H as ((a, b) & E & H). cbn in E. subst b. apply filter_In in H. apply (W a k), H.
Qed.
Lemma cs_run_ok g : gwf g -> forall order, (forall n, In n order -> n < length (g_nodes g)) -> forall h o, hP h -> nodes_ok g h ->
  exists y h', cs_run U up uo g h order o = Ok (y, h').
Proof.
  intro W. induction order as [|n r IH]; intros L h o H N; cbn [cs_run]; [eauto|].
  destruct (node_mut_ok g h n N (L n (or_introl eq_refl))) as (p & b & E & EM). rewrite E. cbn [bind].
  pose proof (bP_process b (hP_get h p b H EM)) as K. destruct (bproc b) as [[z b']|]; [|contradiction]. cbn [bind].
  assert (N1 : nodes_ok g (put U h p b')) by (apply (nodes_count g h); [intro q; apply count_put|exact N]).
  destruct (prime_nodes_ok g (neighbors g n) (fun k => neighbors_range g n k W) (put U h p b') z (hP_put h p b' H K) N1) as [h1 E1]. rewrite E1. cbn [bind].
  destruct (prime_nodes_hP g _ _ z h1 (hP_put h p b' H K) E1) as [H1 C1].
  apply IH; [intros k Hk; apply L; right; exact Hk|exact H1|exact (nodes_count g _ h1 C1 N1)].
Qed.
(** the order only names existing blocks *)
Definition order_ok (s : complex) : Prop := forall n, In n (cs_order s) -> n < length (g_nodes (cs_graph s)).
Lemma order_in_range g o : 2 <= length (g_nodes g) -> gwf g -> process_order g 0 1 = Some o -> forall n, In n o -> n < length (g_nodes g).
Proof.
  intros L W E. destruct (order_shape g 0 1 W ltac:(lia)) as (mid & E2 & _ & K). rewrite E2 in E. injection E as <-.
  intros n [<-|H]; [lia|]. apply in_app_or in H. destruct H as [H|[<-|[]]]; [apply (K n H)|lia].
Qed.
Lemma cs_process_ok ops s h x : ginv ops s -> order_ok s -> hP h -> nodes_ok (cs_graph s) h -> exists y h', cs_process U up uo s h x = Ok (y, h').
Proof.
  intros (I0 & I1 & L & W & _) O H N. unfold cs_process. destruct (cs_paused s); [eauto|].
  assert (L2 : 0 < length (g_nodes (cs_graph s))) by (rewrite L; unfold blocks; lia).
  rewrite I0. destruct (prime_node_ok (cs_graph s) h 0 x N L2) as [h1 E1]. rewrite E1. cbn [bind].
  destruct (prime_node_hP _ _ _ _ _ H E1) as [H1 C1].
  destruct (cs_run_ok (cs_graph s) W (cs_order s) O h1 f0 H1 (nodes_count _ _ _ C1 N)) as (y & h2 & ->). cbn [bind]. eauto.
Qed.

Definition cinv (h0 : heap U) (ops : list cop) (st : complex * heap U) : Prop :=
  ginv ops (fst st) /\ order_ok (fst st) /\ hP (snd st) /\ nodes_ok (cs_graph (fst st)) (snd st) /\ (forall p, count U (snd st) p = count U h0 p).
Lemma new_count h gi go p : owned U h p -> count U (snd (cs_new U h gi go)) p = 1%Z.
Proof.
  intros (c & E & K). assert (L : p < length h) by (apply nth_error_Some; rewrite E; discriminate). unfold count, cs_new. cbn [alloc g_add_node snd].
  rewrite <- app_assoc, nth_error_app1 by exact L. rewrite E. exact K.
Qed.
Lemma new_cinv h gi go : hP h -> cinv (snd (cs_new U h gi go)) [] (cs_new U h gi go).
Proof.
  intro H. split; [apply new_ginv|]. split; [intros n []|]. split; [apply cs_new_hP, H|]. split; [|reflexivity].
  intros p Hp. unfold cs_new in *. cbn [alloc g_add_node fst snd cs_graph g_nodes app] in *. unfold count.
  destruct Hp as [<-|[<-|[]]]; rewrite <- app_assoc, nth_error_app2, ?app_length by (rewrite ?app_length; cbn; lia); cbn [length];
    [replace (length h - length h) with 0 by lia|replace (length h + 1 - length h) with 1 by lia]; reflexivity.
Qed.
Lemma complex_step_ok h0 ops st o : cinv h0 ops st ->
  match o with CAddBlock p => count U h0 p = 1%Z | CConnect a b => a < blocks ops /\ b < blocks ops | CShare _ | CUnshare _ => False | _ => True end ->
  exists y st', cs_step U up uo st o = Ok (y, st') /\ cinv h0 (ops ++ [o]) st'.
Proof.
  intros (G & O & H & N & C) HO. destruct st as [s h]. cbn [fst snd] in *.
  assert (L2 : 2 <= length (g_nodes (cs_graph s))) by (destruct G as (_ & _ & L & _); rewrite L; unfold blocks; lia).
  destruct (edits_order o) eqn:EO.
  - destruct o; try discriminate; cbn [cs_step].
    + destruct (connect_ok ops s a b G) as [K1 K2]. destruct (cs_add_connection s a b) as [s'|] eqn:E; [|exfalso; apply K1; tauto].
      destruct (K2 s' eq_refl) as [G' P']. cbn [bind]. eexists. eexists. split; [reflexivity|].
      assert (EN : g_nodes (cs_graph s') = g_nodes (cs_graph s)).
      { unfold cs_add_connection, g_update_edge, cs_with_graph in E. destruct (g_find_edge (cs_graph s) a b); cbn [bind] in E.
        - destruct (process_order (cs_graph s) (cs_ig s) (cs_og s)); [|discriminate]. injection E as <-. reflexivity.
        - destruct ((a <? length (g_nodes (cs_graph s))) && (b <? length (g_nodes (cs_graph s)))); [|discriminate]. cbn [bind] in E.
          match type of E with context [process_order ?g ?i ?o] => destruct (process_order g i o) end; [|discriminate]. injection E as <-. reflexivity. }
      split; [exact G'|]. cbn [fst snd]. split; [|split; [exact H|split; [|exact C]]].
      * intros n. apply (order_in_range (cs_graph s')); [rewrite EN; exact L2|apply G'|exact P'].
      * unfold nodes_ok. rewrite EN. exact N.
    + destruct (disconnect_ok ops s a b G) as (s' & E & G' & P'). rewrite E. cbn [bind]. eexists. eexists. split; [reflexivity|].
      assert (EN : g_nodes (cs_graph s') = g_nodes (cs_graph s)).
      { unfold cs_remove_connection, cs_with_graph in E. destruct (process_order (g_remove_edge (cs_graph s) a b) (cs_ig s) (cs_og s)); [|discriminate].
        injection E as <-. reflexivity. }
      split; [exact G'|]. cbn [fst snd]. split; [|split; [exact H|split; [|exact C]]].
      * intros n. apply (order_in_range (cs_graph s')); [rewrite EN; exact L2|apply G'|exact P'].
      * unfold nodes_ok. rewrite EN. exact N.
  - assert (KS : exists y s' h', cs_step U up uo (s, h) o = Ok (y, (s', h')) /\ hP h' /\ (forall p, count U h' p = count U h p) /\
                  g_nodes (cs_graph s') = g_nodes (cs_graph s) ++ (match o with CAddBlock p => [p] | _ => [] end)).
    { destruct o; try discriminate; try contradiction; cbn [cs_step].
      1:{ destruct (cs_process_ok ops s h x G O H N) as (y & h' & E). rewrite E. cbn [bind]. exists (Some y), s, h'. split; [reflexivity|].
          destruct (cs_process_hP s h x y h' H E) as [H' C']. rewrite app_nil_r. auto. }
      all: do 3 eexists; split; [reflexivity|]; split; [exact H|]; split; [reflexivity|]; cbn; rewrite ?app_nil_r; reflexivity. }
    destruct KS as (y & s' & h' & E & H' & C' & EN). exists y, (s', h'). split; [exact E|].
    destruct (other_ginv U up uo ops s h o y s' h' G EO E) as [G' EO']. split; [exact G'|]. cbn [fst snd]. split; [|split; [exact H'|split]].
    + intros n Hn. rewrite EO' in Hn. apply O in Hn. rewrite EN, app_length. lia.
    + intros p Hp. rewrite C'. rewrite EN in Hp. apply in_app_or in Hp. destruct Hp as [Hp|Hp]; [apply N, Hp|].
      destruct o; try contradiction. destruct Hp as [<-|[]]. rewrite C. exact HO.
    + intro p. rewrite C'. apply C.
Qed.
Lemma complex_safe h gi go ops : hP h -> proper_history U h ops ->
  exists ys st, run_res (cs_step U up uo) (cs_new U h gi go) ops = Ok (ys, st) /\ cinv (snd (cs_new U h gi go)) ops st.
Proof.
  intro H. induction ops as [|o ops IH] using rev_ind; intro PH.
  - exists [], (cs_new U h gi go). split; [reflexivity|]. apply new_cinv, H.
  - destruct IH as (ys & st & E & K). { intros pre o' post Eq. apply (PH pre o' (post ++ [o])). rewrite Eq, <- app_assoc. reflexivity. }
    pose proof (PH ops o [] eq_refl) as PO.
    destruct (complex_step_ok _ ops st o K) as (y & st' & E' & K').
    { destruct o; try exact PO. apply new_count, PO. }
    exists (ys ++ [y]), st'. split; [|exact K']. rewrite (run_res_app _ _ _ _ _ _ E). cbn [run_res]. rewrite E'. reflexivity.
Qed.
End Heap.
