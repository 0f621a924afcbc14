(** * Blocks, SimpleSound, ComplexSound: histories *)
From Coq Require Import ZArith List Bool Lia Arith.
From Verif Require Import Model.Floats Model.Generators Model.Modifiers Model.Sounds Spec.SoundSpec Proof.GenericP Proof.OrderP.
Import ListNotations.
Local Open Scope nat_scope.

(** ** StandardBlock *)
Section Block.
Variables G M I : Type.
Variable gp : G -> res (f32 * G). Variable mp : M -> f32 -> res (f32 * M). Variable ip : I -> f32 -> f32 -> res (f32 * I).
Definition babs (s : bspec G M I) : stdblock G M I :=
  let 'mkBS g m i xs eg em ei := s in mkSB g (eg + 1) m (em + 1) i (ei + 1) (fold_left fadd xs f0).
Definition bmap (r : res (option f32 * bspec G M I)) : res (option f32 * stdblock G M I) := do (y, s) <- r; Ok (y, babs s).
Lemma block_step_ok s o : block_step gp mp ip (babs s) o = bmap (bspec_step gp mp ip s o).
Proof.
  destruct s as [g m i xs eg em ei]. destruct o as [x| |p|p].
  - cbn. unfold sb_prime. cbn. rewrite fold_left_app. reflexivity.
  - cbn. unfold sb_process. cbn.
    assert (K : forall e A (a : A), get_mut_unwrap (e + 1) a = if (e =? 0)%Z then Ok a else Panic).
    { intros e A a. unfold get_mut_unwrap. destruct (Z.eqb_spec (e + 1) 1), (Z.eqb_spec e 0); try reflexivity; lia. }
    rewrite !K. destruct (eg =? 0)%Z, (em =? 0)%Z, (ei =? 0)%Z; cbn; try reflexivity.
    2:{ destruct (gp g) as [[a g']|]; reflexivity. }
    destruct (gp g) as [[a g']|]; cbn; [|reflexivity]. destruct (mp m (fold_left fadd xs f0)) as [[b m']|]; cbn; [|reflexivity].
    destruct (ip i a b) as [[y i']|]; reflexivity.
  - destruct p; cbn; unfold sb_count; cbn; do 3 f_equal; lia.
  - destruct p; cbn; unfold sb_count; cbn; do 3 f_equal; lia.
Qed.
Lemma block_history ops : forall s,
  run_res (block_step gp mp ip) (babs s) ops = do (ys, s') <- run_res (bspec_step gp mp ip) s ops; Ok (ys, babs s').
Proof.
  induction ops as [|o ops IH]; intro s; [reflexivity|]. cbn [run_res]. rewrite block_step_ok. unfold bmap.
  destruct (bspec_step gp mp ip s o) as [[y s1]|]; cbn [bind]; [|reflexivity]. rewrite IH.
  destruct (run_res (bspec_step gp mp ip) s1 ops) as [[ys s2]|]; reflexivity.
Qed.
Lemma block_panics : (forall g, gp g <> Panic) -> (forall m x, mp m x <> Panic) -> (forall i a b, ip i a b <> Panic) ->
  forall b, sb_process gp mp ip b = Panic <-> sb_gc b <> 1%Z \/ sb_mc b <> 1%Z \/ sb_ic b <> 1%Z.
Proof.
  intros Hg Hm Hi [g gc m mc i ic x]. unfold sb_process, get_mut_unwrap. cbn.
  destruct (Z.eqb_spec ic 1); cbn; [|tauto]. destruct (Z.eqb_spec gc 1); cbn; [|tauto].
  pose proof (Hg g). destruct (gp g) as [[a g']|]; cbn; [|tauto]. destruct (Z.eqb_spec mc 1); cbn; [|tauto].
  pose proof (Hm m x). destruct (mp m x) as [[b m']|]; cbn; [|tauto]. pose proof (Hi i a b). destruct (ip i a b) as [[y i']|]; cbn; [|tauto].
  split; [discriminate|tauto].
Qed.
End Block.

(** ** pause and mute, for any sound *)
Section Switches.
Variables St Op : Type.
Variable step : St -> Op -> res (option f32 * St).
Variable kind : Op -> opkind.
Variables paused muted : St -> bool.
Hypothesis paused_proc : forall s o, paused s = true -> kind o = KProcess -> step s o = Ok (Some f0, s).
Hypothesis paused_flag : forall s o y s', step s o = Ok (y, s') -> paused s' = match kind o with KPause => negb (paused s) | _ => paused s end.
Lemma pause_history ops : forall s, run_res step s ops =
  do (ys, s') <- run_res step s (unpaused kind (paused s) ops); Ok (with_paused kind (paused s) ops ys, s').
Proof.
  induction ops as [|o ops IH]; intro s; [reflexivity|]. cbn [run_res unpaused with_paused].
  assert (Q : forall p, (forall y s', step s o = Ok (y, s') -> paused s' = p) ->
    (do (y, s1) <- step s o; do (ys, s2) <- run_res step s1 ops; Ok (y :: ys, s2)) =
    do (ys, s') <- run_res step s (o :: unpaused kind p ops); Ok (hd None ys :: with_paused kind p ops (tl ys), s')).
  { intros p Hp. cbn [run_res]. destruct (step s o) as [[y s1]|] eqn:E; cbn [bind]; [|reflexivity].
    rewrite IH. rewrite (Hp _ _ eq_refl). destruct (run_res step s1 (unpaused kind p ops)) as [[ys s2]|]; reflexivity. }
  destruct (kind o) eqn:K.
  - destruct (paused s) eqn:P.
    + rewrite (paused_proc s o P K). cbn [bind]. rewrite IH, P. destruct (run_res step s (unpaused kind true ops)) as [[ys s2]|]; reflexivity.
    + apply Q. intros y s' E. rewrite (paused_flag _ _ _ _ E), K. exact P.
  - apply Q. intros y s' E. rewrite (paused_flag _ _ _ _ E), K. reflexivity.
  - apply Q. intros y s' E. rewrite (paused_flag _ _ _ _ E), K. reflexivity.
  - apply Q. intros y s' E. rewrite (paused_flag _ _ _ _ E), K. reflexivity.
Qed.
Lemma paused_after ops : forall s ys s', run_res step s ops = Ok (ys, s') -> paused s' = flag_after kind KPause (paused s) ops.
Proof.
  induction ops as [|o ops IH]; intros s ys s' E; cbn in E; [injection E as <- <-; reflexivity|].
  destruct (step s o) as [[y s1]|] eqn:E1; cbn in E; [|discriminate].
  destruct (run_res step s1 ops) as [[ys1 s2]|] eqn:E2; cbn in E; [|discriminate]. injection E as <- <-.
  rewrite (IH _ _ _ E2), (paused_flag _ _ _ _ E1). unfold flag_after. cbn [fold_left]. destruct (kind o); reflexivity.
Qed.

Variable set_mute : bool -> St -> St.
Hypothesis set_set : forall a b s, set_mute a (set_mute b s) = set_mute a s.
Hypothesis mute_step : forall m s o, kind o = KMute -> step (set_mute m s) o = Ok (None, set_mute (negb m) s).
Hypothesis proc_step : forall m s o, kind o = KProcess -> step (set_mute m s) o =
  do (y, s') <- step (set_mute false s) o; Ok (if m then Some f0 else y, set_mute m s').
Hypothesis other_step : forall m s o, kind o = KPause \/ kind o = KOther -> step (set_mute m s) o =
  do (y, s') <- step (set_mute false s) o; Ok (y, set_mute m s').
Lemma mute_history ops : forall m s, run_res step (set_mute m s) ops =
  do (ys, s') <- run_res step (set_mute false s) (unmuted kind ops); Ok (with_mutes kind m ops ys, set_mute (flag_after kind KMute m ops) s').
Proof.
  induction ops as [|o ops IH]; intros m s.
  - cbn. rewrite set_set. reflexivity.
  - unfold unmuted. cbn [filter]. unfold is_mute at 1. unfold flag_after. cbn [fold_left with_mutes].
    fold (flag_after kind KMute m ops). fold (flag_after kind KMute (negb m) ops).
    assert (Q : forall f : option f32 -> option f32, kind o <> KMute ->
      (forall m', m' = false \/ m' = m -> step (set_mute m' s) o = do (y, s') <- step (set_mute false s) o; Ok (if m' then f y else y, set_mute m' s')) ->
      run_res step (set_mute m s) (o :: ops) = do (ys, s') <- run_res step (set_mute false s) (o :: unmuted kind ops);
        Ok ((if m then f (hd None ys) else hd None ys) :: with_mutes kind m ops (tl ys), set_mute (flag_after kind KMute m ops) s')).
    { intros f Hk Hs. cbn [run_res]. rewrite (Hs m (or_intror eq_refl)). pose proof (Hs false (or_introl eq_refl)) as H0.
      destruct (step (set_mute false s) o) as [[y s1]|]; cbn [bind] in *; [|reflexivity]. injection H0 as H0.
      rewrite IH, <- H0. unfold unmuted. destruct (run_res step s1 (filter (fun o => negb (is_mute kind o)) ops)) as [[ys s2]|]; reflexivity. }
    destruct (kind o) eqn:K; cbn [negb].
    + unfold unmuted in Q. rewrite (Q (fun _ => Some f0)); [reflexivity|discriminate|]. intros m' _. apply (proc_step m' s o K).
    + unfold unmuted in Q. rewrite (Q (fun y => y)); [|discriminate|].
      * destruct (run_res step (set_mute false s) _) as [[ys s2]|]; cbn; [|reflexivity]. destruct m; reflexivity.
      * intros m' _. rewrite (other_step m' s o (or_introl K)). destruct (step (set_mute false s) o) as [[y s1]|]; cbn; [|reflexivity]. destruct m'; reflexivity.
    + cbn [run_res]. rewrite (mute_step m s o K). cbn [bind]. rewrite IH. clear Q. unfold unmuted.
      destruct (run_res step (set_mute false s) (filter (fun o => negb (is_mute kind o)) ops)) as [[ys s2]|]; reflexivity.
    + unfold unmuted in Q. rewrite (Q (fun y => y)); [|discriminate|].
      * destruct (run_res step (set_mute false s) _) as [[ys s2]|]; cbn; [|reflexivity]. destruct m; reflexivity.
      * intros m' _. rewrite (other_step m' s o (or_intror K)). destruct (step (set_mute false s) o) as [[y s1]|]; cbn; [|reflexivity]. destruct m'; reflexivity.
Qed.
End Switches.

Definition ss_set_mute (m : bool) (s : simple) : simple :=
  mkSimple (ss_gen s) (ss_mods s) (ss_in s) (ss_out s) (ss_id s) m (ss_paused s).
Definition cs_set_mute (m : bool) (s : complex) : complex :=
  mkComplex (cs_graph s) (cs_order s) (cs_ig s) (cs_og s) (cs_id s) m (cs_paused s).
Section Sounds.
Variable U : Type. Variable up : U -> f32 -> U. Variable uo : U -> res (f32 * U).
Local Notation heap := (heap U). Local Notation cell := (cell U).
Local Notation ss_step := (ss_step U up uo). Local Notation cs_step := (cs_step U up uo).

Lemma ss_paused_proc s h o : ss_paused s = true -> sop_kind o = KProcess -> ss_step (s, h) o = Ok (Some f0, (s, h)).
Proof. intros P K. destruct o; try discriminate. cbn. unfold ss_process. rewrite P. reflexivity. Qed.
Lemma ss_paused_flag st o y st' : ss_step st o = Ok (y, st') ->
  ss_paused (fst st') = match sop_kind o with KPause => negb (ss_paused (fst st)) | _ => ss_paused (fst st) end.
Proof.
  destruct st as [s h]. intro E. destruct o; cbn in E.
  1:{ destruct (ss_process U up uo s h x) as [[z h']|]; [|discriminate]. cbn in E. injection E as <- <-. reflexivity. }
  all: injection E as <- <-; reflexivity.
Qed.
Lemma ss_pause_history ops st : run_res ss_step st ops =
  do (ys, st') <- run_res ss_step st (unpaused sop_kind (ss_paused (fst st)) ops); Ok (with_paused sop_kind (ss_paused (fst st)) ops ys, st').
Proof.
  apply (pause_history _ _ ss_step sop_kind (fun st => ss_paused (fst st))).
  - intros [s h] o. apply ss_paused_proc.
  - apply ss_paused_flag.
Qed.
Lemma ss_mute_history ops s h : run_res ss_step (s, h) ops =
  do (ys, st') <- run_res ss_step (ss_set_mute false s, h) (unmuted sop_kind ops);
  Ok (with_mutes sop_kind (ss_muted s) ops ys, (ss_set_mute (flag_after sop_kind KMute (ss_muted s) ops) (fst st'), snd st')).
Proof.
  pose proof (mute_history _ _ ss_step sop_kind (fun m st => (ss_set_mute m (fst st), snd st))) as H.
  cbn [fst snd] in H. specialize (H ltac:(reflexivity)).
  replace (s, h) with (ss_set_mute (ss_muted s) (fst (s, h)), snd (s, h)) at 1 by (destruct s; reflexivity).
  rewrite (H); [reflexivity| | |].
  - intros m [s' h'] o K. destruct o; try discriminate. reflexivity.
  - intros m [s' h'] o K. destruct o; try discriminate. cbn. unfold ss_process. cbn [ss_paused ss_set_mute ss_muted ss_gen ss_mods ss_in ss_out].
    destruct (ss_paused s') eqn:P; [destruct m; reflexivity|].
    destruct (match get_mut U h' (ss_gen s') with Some b => _ | None => _ end) as [[y h1]|]; cbn [bind]; [|reflexivity].
    destruct (ss_chain U up uo h1 (ss_mods s') y) as [[z h2]|]; cbn; [|reflexivity]. destruct m; reflexivity.
  - intros m [s' h'] o K. destruct o; destruct K; try discriminate; reflexivity.
Qed.
Lemma ss_flags ops st ys st' : run_res ss_step st ops = Ok (ys, st') -> ss_paused (fst st') = flag_after sop_kind KPause (ss_paused (fst st)) ops
  /\ ss_muted (fst st') = flag_after sop_kind KMute (ss_muted (fst st)) ops.
Proof.
  intro E. split.
  - eapply (paused_after _ _ ss_step sop_kind (fun st => ss_paused (fst st))); [apply ss_paused_flag|exact E].
  - destruct st as [s h]. rewrite ss_mute_history in E. destruct (run_res ss_step _ _) as [[zs st2]|]; [|discriminate].
    cbn in E. injection E as <- <-. reflexivity.
Qed.

Lemma cs_paused_proc s h o : cs_paused s = true -> cop_kind o = KProcess -> cs_step (s, h) o = Ok (Some f0, (s, h)).
Proof. intros P K. destruct o; try discriminate. cbn. unfold cs_process. rewrite P. reflexivity. Qed.
Lemma cs_with_graph_ok s g s' : cs_with_graph s g = Ok s' -> cs_graph s' = g /\ cs_ig s' = cs_ig s /\ cs_og s' = cs_og s /\
  cs_id s' = cs_id s /\ cs_muted s' = cs_muted s /\ cs_paused s' = cs_paused s /\ process_order g (cs_ig s) (cs_og s) = Some (cs_order s').
Proof. unfold cs_with_graph. destruct (process_order g (cs_ig s) (cs_og s)); [|discriminate]. intro E. injection E as <-. cbn. repeat split. Qed.
Lemma cs_paused_flag st o y st' : cs_step st o = Ok (y, st') ->
  cs_paused (fst st') = match cop_kind o with KPause => negb (cs_paused (fst st)) | _ => cs_paused (fst st) end.
Proof.
  destruct st as [s h]. intro E. destruct o; cbn in E.
  1:{ destruct (cs_process U up uo s h x) as [[z h']|]; [|discriminate]. cbn in E. injection E as <- <-. reflexivity. }
  6:{ destruct (cs_add_connection s a b) as [s'|] eqn:A; [|discriminate]. cbn in E. injection E as <- <-. cbn.
      unfold cs_add_connection in A. destruct (g_update_edge (cs_graph s) a b); [|discriminate]. cbn in A. apply cs_with_graph_ok in A. apply A. }
  6:{ destruct (cs_remove_connection s a b) as [s'|] eqn:A; [|discriminate]. cbn in E. injection E as <- <-. cbn.
      apply cs_with_graph_ok in A. apply A. }
  all: injection E as <- <-; reflexivity.
Qed.
Lemma cs_pause_history ops st : run_res cs_step st ops =
  do (ys, st') <- run_res cs_step st (unpaused cop_kind (cs_paused (fst st)) ops); Ok (with_paused cop_kind (cs_paused (fst st)) ops ys, st').
Proof.
  apply (pause_history _ _ cs_step cop_kind (fun st => cs_paused (fst st))).
  - intros [s h] o. apply cs_paused_proc.
  - apply cs_paused_flag.
Qed.
Lemma cs_mute_history ops s h : run_res cs_step (s, h) ops =
  do (ys, st') <- run_res cs_step (cs_set_mute false s, h) (unmuted cop_kind ops);
  Ok (with_mutes cop_kind (cs_muted s) ops ys, (cs_set_mute (flag_after cop_kind KMute (cs_muted s) ops) (fst st'), snd st')).
Proof.
  pose proof (mute_history _ _ cs_step cop_kind (fun m st => (cs_set_mute m (fst st), snd st))) as H.
  cbn [fst snd] in H. specialize (H ltac:(reflexivity)).
  replace (s, h) with (cs_set_mute (cs_muted s) (fst (s, h)), snd (s, h)) at 1 by (destruct s; reflexivity).
  assert (W : forall m g s, cs_with_graph (cs_set_mute m s) g = do s' <- cs_with_graph (cs_set_mute false s) g; Ok (cs_set_mute m s')).
  { intros m g s0. unfold cs_with_graph. cbn. destruct (process_order g (cs_ig s0) (cs_og s0)); reflexivity. }
  rewrite (H); [reflexivity| | |].
  - intros m [s' h'] o K. destruct o; try discriminate. reflexivity.
  - intros m [s' h'] o K. destruct o; try discriminate. cbn. unfold cs_process. cbn [cs_paused cs_set_mute cs_muted cs_graph cs_order cs_ig cs_og].
    destruct (cs_paused s') eqn:P; [destruct m; reflexivity|].
    destruct (prime_node U up (cs_graph s') h' (cs_ig s') x) as [h1|]; cbn [bind]; [|reflexivity].
    destruct (cs_run U up uo (cs_graph s') h1 (cs_order s') f0) as [[z h2]|]; cbn; [|reflexivity]. destruct m; reflexivity.
  - intros m [s' h'] o K. destruct o; destruct K; try discriminate; try reflexivity.
    + cbn [SoundSpec.cs_step]. unfold cs_add_connection. cbn [cs_graph cs_set_mute fst snd].
      destruct (g_update_edge (cs_graph s') a b) as [g|]; cbn [bind]; [|reflexivity]. rewrite W.
      destruct (cs_with_graph (cs_set_mute false s') g); reflexivity.
    + cbn [SoundSpec.cs_step]. unfold cs_remove_connection. cbn [cs_graph cs_set_mute fst snd]. rewrite W.
      destruct (cs_with_graph (cs_set_mute false s') (g_remove_edge (cs_graph s') a b)); reflexivity.
Qed.
Lemma cs_flags ops st ys st' : run_res cs_step st ops = Ok (ys, st') -> cs_paused (fst st') = flag_after cop_kind KPause (cs_paused (fst st)) ops
  /\ cs_muted (fst st') = flag_after cop_kind KMute (cs_muted (fst st)) ops.
Proof.
  intro E. split.
  - eapply (paused_after _ _ cs_step cop_kind (fun st => cs_paused (fst st))); [apply cs_paused_flag|exact E].
  - destruct st as [s h]. rewrite cs_mute_history in E. destruct (run_res cs_step _ _) as [[zs st2]|]; [|discriminate].
    cbn in E. injection E as <- <-. reflexivity.
Qed.
End Sounds.
