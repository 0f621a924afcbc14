(** * Dataflow of a ComplexSound *)
From Coq Require Import ZArith List Bool Arith Lia.
From Verif Require Import Model.Floats Model.Modifiers Model.Sounds Spec.SoundSpec Spec.Parts Spec.Flow Proof.OrderP Proof.SoundsP Proof.SoundsP2 Proof.SoundsP3 Proof.PartsP.
Import ListNotations.

Section Flow.
Variable U : Type. Variable up : U -> f32 -> U. Variable uo : U -> res (f32 * U).
Local Notation heap := (heap U). Local Notation block := (block U).
Local Notation bprime := (b_prime U up). Local Notation bproc := (b_process U uo).
Variable g : graph.
Hypothesis ND : NoDup (g_nodes g). Hypothesis NE : NoDup (g_edges g).
Variable E : nat -> nat -> bool. Hypothesis HE : forall a b, E a b = true <-> In (a, b) (g_edges g).

(** the block at a node *)
Definition vw (h : heap) (n : nat) : option block := match nth_error (g_nodes g) n with Some p => get_mut U h p | None => None end.
Lemma node_vw h n p b : node_mut U g h n = Ok (p, b) -> nth_error (g_nodes g) n = Some p /\ vw h n = Some b /\ get_mut U h p = Some b.
Proof.
  unfold node_mut, vw. destruct (nth_error (g_nodes g) n) as [q|]; [|discriminate]. cbn [unwrap bind]. destruct (get_mut U h q) as [c|] eqn:G; [|discriminate].
  cbn [unwrap bind]. intro K. injection K as <- <-. auto.
Qed.
Lemma put_vw h n p b b' m : nth_error (g_nodes g) n = Some p -> get_mut U h p = Some b -> vw (put U h p b') m = if m =? n then Some b' else vw h m.
Proof.
  intros P G. unfold vw. destruct (Nat.eqb_spec m n) as [->|N].
  - rewrite P. apply (get_mut_put_same U h p b b' G).
  - destruct (nth_error (g_nodes g) m) as [q|] eqn:Q; [|reflexivity]. apply get_mut_put_other. intros ->.
    apply N. apply (proj1 (NoDup_nth_error (g_nodes g)) ND); [apply nth_error_Some; congruence|congruence].
Qed.
Lemma prime_vw h n x h' m : prime_node U up g h n x = Ok h' -> vw h' m = if m =? n then option_map (fun b => bprime b x) (vw h m) else vw h m.
Proof.
  unfold prime_node. destruct (node_mut U g h n) as [[p b]|] eqn:K; [|discriminate]. cbn [bind]. intro Q. injection Q as <-.
  destruct (node_vw _ _ _ _ K) as (P & V & G). rewrite (put_vw h n p b _ m P G). destruct (Nat.eqb_spec m n) as [->|]; [rewrite V|]; reflexivity.
Qed.
Lemma primes_vw x ns : NoDup ns -> forall h h' m, prime_nodes U up g h ns x = Ok h' ->
  vw h' m = if in_dec Nat.eq_dec m ns then option_map (fun b => bprime b x) (vw h m) else vw h m.
Proof.
  induction 1 as [|n r Hn _ IH]; intros h h' m; cbn [prime_nodes]; [intro Q; injection Q as <-; reflexivity|].
  destruct (prime_node U up g h n x) as [h1|] eqn:K; [|discriminate]. cbn [bind]. intro Q. rewrite (IH _ _ m Q), (prime_vw _ _ _ _ m K).
  destruct (in_dec Nat.eq_dec m (n :: r)) as [I|I], (in_dec Nat.eq_dec m r) as [J|J], (Nat.eqb_spec m n) as [->|D]; try reflexivity; try contradiction.
  all: exfalso; cbn [In] in I; intuition congruence.
Qed.
Lemma neighbors_NoDup a : NoDup (neighbors g a).
Proof.
  unfold neighbors. clear -NE. induction (g_edges g) as [|[c d] l IH]; [constructor|]. inversion NE as [|? ? N1 N2]; subst. cbn [filter fst]. destruct (Nat.eqb_spec c a) as [->|]; [|apply IH, N2].
  cbn [map snd]. constructor; [|apply IH, N2]. intro H. apply in_map_iff in H. destruct H as ((c', d') & Q & H). cbn [snd] in Q. subst d'. apply filter_In in H. destruct H as [H K].
  cbn [fst] in K. apply Nat.eqb_eq in K. subst c'. contradiction.
Qed.

Definition primed (l : list f32) (b : block) : block := fold_left bprime l b.
Lemma primed_app a b c : primed (a ++ b) c = primed b (primed a c). Proof. apply fold_left_app. Qed.
Definition got (l : list nat) (m : nat) (y : nat -> f32) : list f32 := map y (filter (fun a => E a m) l).
Lemma got_cons n l m y : got (n :: l) m y = (if E n m then [y n] else []) ++ got l m y.
Proof. unfold got. cbn [filter]. destruct (E n m); reflexivity. Qed.
Lemma got_ext l m y y' : (forall a, In a l -> y a = y' a) -> got l m y = got l m y'.
Proof. intro H. unfold got. apply map_ext_in. intros a Ha. apply filter_In in Ha. apply H, Ha. Qed.

(** one call *)
Lemma run_flow L : NoDup L -> forall h o out h', cs_run U up uo g h L o = Ok (out, h') ->
  exists y : nat -> f32, out = last (map y L) o /\
    (forall m, ~ In m L -> vw h' m = option_map (primed (got L m y)) (vw h m)) /\
    (forall la m lb, L = la ++ m :: lb -> exists b b1, vw h m = Some b /\ bproc (primed (got la m y) b) = Ok (y m, b1) /\
       vw h' m = Some (primed (got (m :: lb) m y) b1)).
Proof.
  induction 1 as [|n r Hn NR IH]; intros h o out h' R.
  - cbn [cs_run] in R. injection R as <- <-. exists (fun _ => f0). split; [reflexivity|]. split.
    + intros m _. destruct (vw h m); reflexivity.
    + intros [|] m lb Q; discriminate.
  - rewrite cs_run_cons in R. destruct (node_mut U g h n) as [[p b]|] eqn:K; [|discriminate]. cbn [bind] in R.
    destruct (bproc b) as [[z b']|] eqn:PB; [|discriminate]. cbn [bind] in R.
    destruct (prime_nodes U up g (put U h p b') (neighbors g n) z) as [h1|] eqn:PN; [|discriminate]. cbn [bind] in R.
    destruct (node_vw _ _ _ _ K) as (P & V & G). destruct (IH _ _ _ _ R) as (y0 & O & A & B). clear IH.
    set (y := fun a => if a =? n then z else y0 a).
    assert (Yn : y n = z) by (unfold y; rewrite Nat.eqb_refl; reflexivity).
    assert (Yr : forall a, In a r -> y a = y0 a) by (intros a Ha; unfold y; destruct (Nat.eqb_spec a n) as [->|]; [contradiction|reflexivity]).
    assert (V1 : forall m, vw h1 m = option_map (primed (if E n m then [z] else [])) (if m =? n then Some b' else vw h m)).
    { intro m. rewrite (primes_vw z (neighbors g n) (neighbors_NoDup n) _ _ m PN), (put_vw h n p b b' m P G).
      destruct (in_dec Nat.eq_dec m (neighbors g n)) as [I|I].
      - apply neighbors_In, HE in I. rewrite I. reflexivity.
      - destruct (E n m) eqn:EE; [exfalso; apply I, neighbors_In, HE, EE|]. destruct (if m =? n then Some b' else vw h m); reflexivity. }
    exists y. split; [|split].
    + rewrite O. cbn [map]. rewrite Yn. rewrite (map_ext_in y y0 r Yr). destruct r as [|a r']; [reflexivity|]. cbn [map]. generalize (map y0 r') (y0 a). clear. intros l f.
      change (last (f :: l) z = last (f :: l) o). revert f. induction l as [|c l IHl]; intro f; [reflexivity|]. exact (IHl c).
    + intros m Hm. assert (m <> n /\ ~ In m r) as [M1 M2] by (split; [intros ->; apply Hm; left; reflexivity|intro; apply Hm; right; assumption]).
      rewrite (A m M2), V1. destruct (Nat.eqb_spec m n) as [|_]; [contradiction|]. rewrite got_cons, Yn, (got_ext r m y y0 Yr).
      destruct (vw h m) as [c|]; [|reflexivity]. cbn [option_map]. rewrite primed_app. reflexivity.
    + intros la m lb Q. destruct la as [|a la]; cbn [app] in Q.
      * injection Q as <- <-. exists b, b'. split; [exact V|]. split; [rewrite Yn; exact PB|]. rewrite (A n Hn), V1, Nat.eqb_refl. cbn [option_map].
        rewrite got_cons, Yn, (got_ext r n y y0 Yr), primed_app. reflexivity.
      * injection Q as <- Q. destruct (B la m lb Q) as (c & c1 & C1 & C2 & C3).
        assert (Mn : m <> n) by (intros ->; apply Hn; rewrite Q; apply in_or_app; right; left; reflexivity).
        rewrite V1 in C1. destruct (Nat.eqb_spec m n) as [|_]; [contradiction|]. destruct (vw h m) as [c0|]; [|discriminate]. cbn [option_map] in C1. injection C1 as <-.
        exists c0, c1. split; [reflexivity|]. rewrite <- primed_app in C2. rewrite got_cons, Yn.
        rewrite (got_ext la m y y0) by (intros a Ha; apply Yr; rewrite Q; apply in_or_app; left; exact Ha).
        assert (Im : In m r) by (rewrite Q; apply in_or_app; right; left; reflexivity).
        rewrite (got_ext (m :: lb) m y y0) by (intros a Ha; apply Yr; rewrite Q; apply in_or_app; right; exact Ha).
        rewrite (Yr m Im). split; [exact C2|exact C3].
Qed.

(** a history of calls *)
Definition flow_call (L : list nat) (h : heap) (x : f32) : res (f32 * heap) :=
  do h1 <- prime_node U up g h 0 x; do (out, h2) <- cs_run U up uo g h1 L f0; Ok (out, h2).
Lemma cycle_late (b1 : block) late a r : run_res (cycle bprime bproc) (primed late b1) (a :: r) = run_res (cycle bprime bproc) b1 ((late ++ a) :: r).
Proof. cbn [run_res]. unfold cycle at 1 3. fold (primed a (primed late b1)) (primed (late ++ a) b1). rewrite primed_app. reflexivity. Qed.
Lemma calls_flow L : NoDup L -> last L 1 = 1 -> L <> [] -> forall xs h ys h', run_res (flow_call L) h xs = Ok (ys, h') ->
  exists out : nat -> nat -> f32, ys = map (out 1) (seq 0 (length xs)) /\
    forall la m lb, L = la ++ m :: lb -> xs <> [] -> exists b, vw h m = Some b /\
      outputs (run_res (cycle bprime bproc) b (map (arrivals E la (m :: lb) m xs out) (seq 0 (length xs)))) = Ok (map (out m) (seq 0 (length xs))).
Proof.
  intros NL LL LN. induction xs as [|x xs IH]; intros h ys h' R.
  - cbn in R. injection R as <- <-. exists (fun _ _ => f0). split; [reflexivity|]. intros ? ? ? _ H. contradiction.
  - cbn [run_res] in R. destruct (flow_call L h x) as [[y0 h2]|] eqn:C; [|discriminate]. cbn [bind] in R.
    destruct (run_res (flow_call L) h2 xs) as [[ys' h3]|] eqn:R'; [|discriminate]. cbn [bind] in R. injection R as <- <-.
    destruct (IH _ _ _ R') as (out' & Y' & F'). clear IH. unfold flow_call in C.
    destruct (prime_node U up g h 0 x) as [h1|] eqn:P0; [|discriminate]. cbn [bind] in C.
    destruct (cs_run U up uo g h1 L f0) as [[o h2']|] eqn:CR; [|discriminate]. cbn [bind] in C. injection C as -> ->.
    destruct (run_flow L NL _ _ _ _ CR) as (y & O & _ & B).
    assert (O1 : y0 = y 1).
    { rewrite O. clear -LL LN. induction L as [|a [|c l] IH]; [congruence|cbn in LL |- *; congruence|]. apply IH; [exact LL|discriminate]. }
    exists (fun a k => match k with O => y a | S j => out' a j end). split.
    { cbn [length seq map]. rewrite O1. f_equal. rewrite <- seq_shift, map_map. exact Y'. }
    intros la m lb Q _. destruct (B la m lb Q) as (b & b1 & B1 & B2 & B3).
    rewrite (prime_vw _ _ _ _ m P0) in B1.
    assert (exists b0, vw h m = Some b0 /\ b = primed (if m =? 0 then [x] else []) b0) as (b0 & V0 & ->).
    { destruct (m =? 0); [|exists b; auto]. destruct (vw h m) as [b0|]; [|discriminate]. injection B1 as <-. exists b0. auto. }
    exists b0. split; [exact V0|]. cbn [length seq map]. rewrite outputs_cons.
    set (out := fun a k => match k with O => y a | S j => out' a j end).
    assert (A0 : arrivals E la (m :: lb) m (x :: xs) out 0 = (if m =? 0 then [x] else []) ++ got la m y) by reflexivity.
    rewrite A0. unfold cycle at 1. fold (primed ((if m =? 0 then [x] else []) ++ got la m y) b0). rewrite primed_app, B2. cbn [bind].
    rewrite <- seq_shift, !map_map.
    assert (T : outputs (run_res (cycle bprime bproc) b1 (map (fun k => arrivals E la (m :: lb) m (x :: xs) out (S k)) (seq 0 (length xs)))) =
                Ok (map (fun k => out m (S k)) (seq 0 (length xs)))).
    { destruct xs as [|x1 xs1]; [reflexivity|]. destruct (F' la m lb Q ltac:(discriminate)) as (b' & V' & K'). rewrite B3 in V'. injection V' as <-.
      change (map (fun k => out m (S k)) (seq 0 (length (x1 :: xs1)))) with (map (out' m) (seq 0 (length (x1 :: xs1)))). rewrite <- K'.
      cbn [length seq map]. rewrite cycle_late. f_equal. f_equal. f_equal. rewrite <- seq_shift, !map_map. apply map_ext. intro k. reflexivity. }
    rewrite T. reflexivity.
Qed.
End Flow.

Section Sound.
Variable U : Type. Variable up : U -> f32 -> U. Variable uo : U -> res (f32 * U).
Local Notation heap := (heap U). Local Notation block := (block U).
Local Notation bprime := (b_prime U up). Local Notation bproc := (b_process U uo).
Local Notation cs_step := (cs_step U up uo).

Lemma nodes_of h gi go ops : forall ys s h', run_res cs_step (cs_new U h gi go) ops = Ok (ys, (s, h')) -> g_nodes (cs_graph s) = node_handles h ops.
Proof.
  induction ops as [|o ops IH] using rev_ind; intros ys s h' R.
  - assert (K : s = fst (cs_new U h gi go)) by (cbn in R; injection R; intros; subst; reflexivity). rewrite K. cbn. rewrite app_length. cbn. rewrite Nat.add_1_r. reflexivity.
  - apply snoc_run in R. destruct R as (ys1 & [s1 h1] & y & R1 & R2). specialize (IH _ _ _ R1).
    assert (N : node_handles h (ops ++ [o]) = node_handles h ops ++ match o with CAddBlock p => [p] | _ => [] end).
    { unfold node_handles, moved_in. rewrite flat_map_app. cbn [flat_map app]. rewrite app_nil_r. reflexivity. }
    rewrite N, <- IH. destruct o; cbn [SoundSpec.cs_step] in R2.
    all: try (match type of R2 with context [cs_process U up uo ?s ?h ?x] => destruct (cs_process U up uo s h x) as [[y' h2]|]; [|discriminate] | context [cs_add_connection ?s ?a ?b] => destruct (cs_add_connection s a b) as [s2|] eqn:K; [|discriminate]; unfold cs_add_connection, g_update_edge in K | context [cs_remove_connection ?s ?a ?b] => destruct (cs_remove_connection s a b) as [s2|] eqn:K; [|discriminate]; unfold cs_remove_connection in K end; cbn [bind] in R2).
    all: injection R2; intros; subst; rewrite ?app_nil_r; try reflexivity.
    all: revert K; repeat match goal with |- context [if ?c then _ else _] => destruct c end; cbn [bind]; try discriminate; unfold cs_with_graph; destruct (process_order _ _ _); try discriminate; intro K; injection K as <-; reflexivity.
Qed.
Lemma order_after h gi go ops : forall ys s h', run_res cs_step (cs_new U h gi go) ops = Ok (ys, (s, h')) -> (exists e, In e ops /\ edits_order e = true) ->
  exists mid, cs_order s = 0 :: mid ++ [1] /\ NoDup (cs_order s).
Proof.
  induction ops as [|o ops IH] using rev_ind; intros ys s h' R (e & Ie & He); [destruct Ie|].
  destruct (edits_order o) eqn:Eo.
  - destruct (order_wf U up uo h gi go ops o s) as (mid & Q & N & _); [exists ys, h'; exact R|exact Eo|]. eauto.
  - apply snoc_run in R. destruct R as (ys1 & [s1 h1] & y & R1 & R2).
    rewrite (proj2 (other_ginv U up uo _ _ _ _ _ _ _ (proj1 (history_ginv U up uo _ _ _ _ _ _ _ R1)) Eo R2)).
    apply (IH _ _ _ R1). exists e. split; [|exact He]. apply in_app_or in Ie. destruct Ie as [Ie|[->|[]]]; [exact Ie|congruence].
Qed.
Lemma last_app1 {A} (l : list A) a d : last (l ++ [a]) d = a. Proof. apply last_last. Qed.

Lemma dataflow h gi go ops s (E : nat -> nat -> bool) hp bs xs ys hp' : reaches_state U up uo h gi go ops s ->
  (exists e, In e ops /\ edits_order e = true) -> (forall a b, E a b = true <-> connected ops a b) ->
  cs_paused s = false -> cs_muted s = false -> NoDup (node_handles h ops) ->
  map (get_mut U hp) (node_handles h ops) = map Some bs ->
  run_res (cs_process U up uo s) hp xs = Ok (ys, hp') ->
  exists out : nat -> nat -> f32, ys = map (out 1) (seq 0 (length xs)) /\
    forall la m lb, cs_order s = la ++ m :: lb -> xs <> [] -> exists b, nth_error bs m = Some b /\
      outputs (run_res (cycle bprime bproc) b (map (arrivals E la (m :: lb) m xs out) (seq 0 (length xs)))) = Ok (map (out m) (seq 0 (length xs))).
Proof.
  intros (ys0 & h0 & R0) Ed HE Pa Mu ND GM R. pose proof (nodes_of _ _ _ _ _ _ _ R0) as NQ. destruct (order_after _ _ _ _ _ _ _ R0 Ed) as (mid & OQ & ON).
  destruct (proj1 (history_ginv U up uo _ _ _ _ _ _ _ R0)) as (I0 & I1 & _ & _ & NE & CE).
  assert (HE' : forall a b, E a b = true <-> In (a, b) (g_edges (cs_graph s))) by (intros; rewrite HE, CE; reflexivity).
  assert (FC : forall xs h, run_res (cs_process U up uo s) h xs = run_res (flow_call U up uo (cs_graph s) (cs_order s)) h xs).
  { clear -Pa Mu I0. assert (K : forall h x, cs_process U up uo s h x = flow_call U up uo (cs_graph s) (cs_order s) h x).
    { intros. unfold cs_process, flow_call. rewrite Pa, Mu, I0. reflexivity. }
    induction xs as [|x xs IH]; intro h; cbn [run_res]; [reflexivity|]. rewrite K. destruct (flow_call U up uo (cs_graph s) (cs_order s) h x) as [[y h1]|]; [|reflexivity]. cbn [bind]. rewrite IH. reflexivity. }
  rewrite FC in R. rewrite <- NQ in ND, GM.
  destruct (calls_flow U up uo (cs_graph s) ND NE E HE' (cs_order s) ON) with (3 := R) as (out & Y & F).
  - rewrite OQ. change (0 :: mid ++ [1]) with ((0 :: mid) ++ [1]). apply last_last.
  - rewrite OQ. discriminate.
  - exists out. split; [exact Y|]. intros la m lb Q NX. destruct (F la m lb Q NX) as (b & V & K). exists b. split; [|exact K].
    unfold vw in V. destruct (nth_error (g_nodes (cs_graph s)) m) as [p|] eqn:P; [|discriminate].
    pose proof (map_nth_error (get_mut U hp) m (g_nodes (cs_graph s)) P) as W. rewrite GM, V in W. rewrite nth_error_map in W. destruct (nth_error bs m); [injection W as ->; reflexivity|discriminate].
Qed.
End Sound.
