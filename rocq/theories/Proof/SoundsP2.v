(** * The heap of blocks: series chains and clones *)
From Coq Require Import ZArith List Bool Lia Arith.
From Verif Require Import Model.Floats Model.Generators Model.Modifiers Model.Sounds Spec.SoundSpec Proof.GenericP Proof.OrderP Proof.SoundsP.
Import ListNotations.
Local Open Scope nat_scope.

Section Heap.
Variable U : Type. Variable up : U -> f32 -> U. Variable uo : U -> res (f32 * U).
Local Notation heap := (heap U). Local Notation block := (block U).
Local Notation bprime := (b_prime U up). Local Notation bproc := (b_process U uo).

Lemma nth_upd_same {A} (l : list A) n f : nth_error (upd l n f) n = option_map f (nth_error l n).
Proof. revert n. induction l as [|a l IH]; intros [|n]; cbn; auto. Qed.
Lemma nth_upd_other {A} (l : list A) n m f : n <> m -> nth_error (upd l n f) m = nth_error l m.
Proof. revert n m. induction l as [|a l IH]; intros [|n] [|m] H; cbn; auto; try congruence. Qed.
Lemma upd_length {A} (l : list A) n f : length (upd l n f) = length l.
Proof. revert n. induction l as [|a l IH]; intros [|n]; cbn; auto. Qed.
Lemma upd_upd {A} (l : list A) n f g : upd (upd l n f) n g = upd l n (fun a => g (f a)).
Proof. revert n. induction l as [|a l IH]; intros [|n]; cbn; auto. f_equal. apply IH. Qed.
Lemma upd_comm {A} (l : list A) n m f g : n <> m -> upd (upd l n f) m g = upd (upd l m g) n f.
Proof. revert n m. induction l as [|a l IH]; intros [|n] [|m] H; cbn; auto; try congruence. f_equal. apply IH. congruence. Qed.
Lemma upd_id {A} (l : list A) n f : (forall a, nth_error l n = Some a -> f a = a) -> upd l n f = l.
Proof. revert n. induction l as [|a l IH]; intros [|n] H; cbn; auto; f_equal; auto. Qed.
Lemma upd_ext {A} (l : list A) n f g : (forall a, f a = g a) -> upd l n f = upd l n g.
Proof. intro H. revert n. induction l as [|a l IH]; intros [|n]; cbn; auto; f_equal; auto. Qed.

Definition count (h : heap) (p : handle) : Z := match nth_error h p with Some c => c_count U c | None => 0%Z end.
Lemma count_put h p b q : count (put U h p b) q = count h q.
Proof.
  unfold count, put. destruct (Nat.eq_dec p q) as [->|N]; [|rewrite nth_upd_other by exact N; reflexivity].
  rewrite nth_upd_same. destruct (nth_error h q); reflexivity.
Qed.
Lemma get_mut_spec h p b : get_mut U h p = Some b <-> count h p = 1%Z /\ exists c, nth_error h p = Some c /\ c_block U c = b.
Proof.
  unfold get_mut, count. destruct (nth_error h p) as [c|].
  - destruct (Z.eqb_spec (c_count U c) 1).
    + split; [intro E; injection E as <-; split; [assumption|eexists; eauto]|]. intros [_ (c' & E & <-)]. injection E as <-. reflexivity.
    + split; [discriminate|]. intros [H _]. congruence.
  - split; [discriminate|]. intros [H _]. discriminate.
Qed.
Lemma get_mut_put_same h p b b' : get_mut U h p = Some b -> get_mut U (put U h p b') p = Some b'.
Proof.
  unfold get_mut, put. rewrite nth_upd_same. destruct (nth_error h p) as [c|]; [|discriminate]. cbn.
  destruct (c_count U c =? 1)%Z; [reflexivity|discriminate].
Qed.
Lemma get_mut_put_other h p q b : p <> q -> get_mut U (put U h p b) q = get_mut U h q.
Proof. intro N. unfold get_mut, put. rewrite nth_upd_other by exact N. reflexivity. Qed.
Lemma put_put h p a b : put U (put U h p a) p b = put U h p b.
Proof. unfold put. rewrite upd_upd. reflexivity. Qed.
Lemma put_comm h p q a b : p <> q -> put U (put U h p a) q b = put U (put U h q b) p a.
Proof. intro N. unfold put. apply upd_comm, N. Qed.

(** several stores *)
Fixpoint puts (h : heap) (ps : list handle) (bs : list block) : heap :=
  match ps, bs with p :: ps, b :: bs => puts (put U h p b) ps bs | _, _ => h end.
Lemma count_puts ps : forall bs h q, count (puts h ps bs) q = count h q.
Proof. induction ps as [|p ps IH]; intros [|b bs] h q; cbn [puts]; auto. rewrite IH. apply count_put. Qed.
Lemma puts_put ps : forall bs h p b, ~ In p ps -> puts (put U h p b) ps bs = put U (puts h ps bs) p b.
Proof.
  induction ps as [|q ps IH]; intros [|c bs] h p b N; cbn [puts]; auto. rewrite <- IH by (intro; apply N; right; assumption).
  rewrite put_comm by (intro; apply N; left; congruence). reflexivity.
Qed.
Lemma puts_get_other ps : forall bs h q, ~ In q ps -> get_mut U (puts h ps bs) q = get_mut U h q.
Proof.
  induction ps as [|p ps IH]; intros [|b bs] h q N; cbn [puts]; auto. rewrite IH by (intro; apply N; right; assumption).
  apply get_mut_put_other. intro; apply N; left; assumption.
Qed.
(** the blocks behind a list of handles *)
Definition held (h : heap) (ps : list handle) (bs : list block) : Prop := map (get_mut U h) ps = map Some bs.
Lemma held_length h ps bs : held h ps bs -> length ps = length bs.
Proof. intro H. apply (f_equal (@length _)) in H. rewrite !map_length in H. exact H. Qed.
Lemma held_put_out h ps bs p b : ~ In p ps -> held h ps bs -> held (put U h p b) ps bs.
Proof.
  unfold held. intros N H. rewrite <- H. apply map_ext_in. intros q Hq. apply get_mut_put_other. intros ->. contradiction.
Qed.
Lemma puts_held ps : NoDup ps -> forall bs bs' h, held h ps bs -> length bs' = length bs -> held (puts h ps bs') ps bs'.
Proof.
  induction 1 as [|p ps Np N IH]; intros bs bs' h H L.
  - destruct bs; [|discriminate]. destruct bs'; [reflexivity|discriminate].
  - destruct bs as [|b bs]; [discriminate|]. destruct bs' as [|b' bs']; [discriminate|]. unfold held in *. cbn in *. injection H as H1 H2.
    rewrite puts_get_other by exact Np. rewrite (get_mut_put_same _ _ _ _ H1). f_equal.
    apply (IH bs); [|lia]. apply held_put_out; assumption.
Qed.
Lemma puts_puts ps : NoDup ps -> forall bs bs' h, length bs = length ps -> length bs' = length ps ->
  puts (puts h ps bs) ps bs' = puts h ps bs'.
Proof.
  induction 1 as [|p ps Np N IH]; intros [|b bs] [|b' bs'] h L L'; try discriminate; [reflexivity|]. cbn [puts length] in *.
  rewrite (puts_put ps bs _ _ _ Np), put_put. rewrite (puts_put ps bs' _ p b'), (puts_put ps bs' h p b') by exact Np.
  f_equal. apply IH; lia.
Qed.
Lemma series_length bs : forall x y bs', series bprime bproc bs x = Ok (y, bs') -> length bs' = length bs.
Proof.
  induction bs as [|b bs IH]; intros x y bs' E; cbn in E; [injection E as <- <-; reflexivity|].
  destruct (bproc (bprime b x)) as [[z b']|]; cbn in E; [|discriminate]. destruct (series bprime bproc bs z) as [[w r]|] eqn:S; cbn in E; [|discriminate].
  injection E as <- <-. cbn. f_equal. eapply IH, S.
Qed.
Lemma ss_chain_series ps : NoDup ps -> forall bs h x, held h ps bs ->
  ss_chain U up uo h ps x = do (y, bs') <- series bprime bproc bs x; Ok (y, puts h ps bs').
Proof.
  induction 1 as [|p ps Np N IH]; intros bs h x H.
  - destruct bs; [reflexivity|discriminate].
  - destruct bs as [|b bs]; [discriminate|]. unfold held in H. cbn in H. injection H as H1 H2. cbn. rewrite H1.
    destruct (bproc (bprime b x)) as [[y b']|]; cbn; [|reflexivity]. rewrite (IH bs).
    + destruct (series bprime bproc bs y) as [[z r]|]; reflexivity.
    + apply held_put_out; assumption.
Qed.

(** ** shared handles are passed over: the general chain *)
(** Rust's accounting: a handle held [k] times has count at least [k] *)
Definition counted (h : heap) (ps : list handle) : Prop :=
  forall p, In p ps -> (Z.of_nat (count_occ Nat.eq_dec ps p) <= count h p)%Z.
Definition view (h : heap) (p : handle) : option block := get_mut U h p.
Lemma counted_tail h p ps : counted h (p :: ps) -> counted h ps.
Proof.
  intros C q Hq. specialize (C q (or_intror Hq)). cbn in C. destruct (Nat.eq_dec p q); lia.
Qed.
Lemma counted_once h p ps b : counted h (p :: ps) -> view h p = Some b -> ~ In p ps.
Proof.
  intros C V Hp. specialize (C p (or_introl eq_refl)). cbn in C. destruct (Nat.eq_dec p p); [|congruence].
  apply get_mut_spec in V. destruct V as [V _]. apply (count_occ_In Nat.eq_dec) in Hp. lia.
Qed.
Lemma counted_put h p b ps : counted h ps -> counted (put U h p b) ps.
Proof. intros C q Hq. rewrite count_put. apply C, Hq. Qed.
Lemma view_put_map h p b ps : ~ In p ps -> map (view (put U h p b)) ps = map (view h) ps.
Proof. intro N. apply map_ext_in. intros q Hq. apply get_mut_put_other. intros ->. contradiction. Qed.
(** ... and everything not mentioned stays as it is *)
Definition same_counts (h h' : heap) : Prop := forall p, count h' p = count h p.
Definition untouched (ps : list handle) (h h' : heap) : Prop := forall p, ~ In p ps -> nth_error h' p = nth_error h p.
Lemma untouched_put h p b ps : In p ps -> untouched ps h (put U h p b).
Proof. intros Hp q Hq. unfold put. apply nth_upd_other. intros ->. contradiction. Qed.
Definition chain_rel (ps : list handle) (h : heap) (r : res (f32 * heap)) (s : res (f32 * list (option block))) : Prop :=
  match r, s with
  | Ok (y, h'), Ok (z, vs) => y = z /\ map (view h') ps = vs /\ same_counts h h' /\ untouched ps h h'
  | Panic, Panic => True
  | _, _ => False
  end.
Lemma chain_opt ps : forall h x, counted h ps ->
  chain_rel ps h (ss_chain U up uo h ps x) (series_opt bprime bproc (map (view h) ps) x).
Proof.
  induction ps as [|p ps IH]; intros h x C.
  - cbn. repeat split.
  - cbn [ss_chain map series_opt]. unfold view at 1. destruct (get_mut U h p) as [b|] eqn:V.
    + destruct (bproc (bprime b x)) as [[y b']|]; cbn [bind]; [|exact I].
      assert (N : ~ In p ps) by (eapply counted_once; eassumption).
      specialize (IH (put U h p b') y (counted_put _ _ _ _ (counted_tail _ _ _ C))). rewrite view_put_map in IH by exact N.
      destruct (ss_chain U up uo (put U h p b') ps y) as [[z h']|], (series_opt bprime bproc (map (view h) ps) y) as [[z' vs]|]; cbn in *; try tauto.
      destruct IH as (-> & IHv & IHc & IHu). repeat split.
      * cbn. f_equal; [|exact IHv]. unfold view, get_mut. rewrite IHu by exact N. apply (get_mut_put_same _ _ _ _ V).
      * intro q. rewrite IHc. apply count_put.
      * intros q Hq. rewrite IHu by (intro; apply Hq; right; assumption). apply untouched_put with (ps := p :: ps); [left; reflexivity|exact Hq].
    + specialize (IH h x (counted_tail _ _ _ C)).
      destruct (ss_chain U up uo h ps x) as [[z h']|], (series_opt bprime bproc (map (view h) ps) x) as [[z' vs]|]; cbn in *; try tauto.
      destruct IH as (-> & IHv & IHc & IHu). repeat split; [|exact IHc|].
      * cbn. f_equal; [|exact IHv]. unfold view. unfold get_mut in *.
        destruct (in_dec Nat.eq_dec p ps) as [Hp|Hp].
        -- (* held twice: the count is above 1 *)
           specialize (C p (or_introl eq_refl)). cbn in C. destruct (Nat.eq_dec p p); [|congruence].
           apply (count_occ_In Nat.eq_dec) in Hp. specialize (IHc p). unfold count in *. destruct (nth_error h' p) as [c'|]; [|reflexivity].
           destruct (Z.eqb_spec (c_count U c') 1); [|reflexivity]. destruct (nth_error h p); lia.
        -- rewrite IHu by exact Hp. exact V.
      * intros q Hq. apply IHu. intro; apply Hq; right; assumption.
Qed.

Definition ss_view (s : simple) (h : heap) : option block * list (option block) := (view h (ss_gen s), map (view h) (ss_mods s)).
Definition simple_rel (s : simple) (h : heap) (r : res (f32 * heap)) (q : res (f32 * (option block * list (option block)))) : Prop :=
  match r, q with
  | Ok (y, h'), Ok (z, v) => y = z /\ ss_view s h' = v /\ same_counts h h' /\ untouched (ss_handles s) h h'
  | Panic, Panic => True
  | _, _ => False
  end.
Lemma simple_series s h x : counted h (ss_handles s) -> ss_paused s = false -> ss_muted s = false ->
  simple_rel s h (ss_process U up uo s h x) (simple_spec bprime bproc (ss_in s) (ss_out s) (ss_view s h) x).
Proof.
  intros C P M. unfold ss_process, simple_spec, ss_view. rewrite P, M. cbn [fst snd]. unfold ss_handles in C.
  unfold view at 1. destruct (get_mut U h (ss_gen s)) as [b|] eqn:V.
  - destruct (bproc (bprime b (fmul x (ss_in s)))) as [[y b']|]; cbn [bind]; [|exact I].
    assert (N : ~ In (ss_gen s) (ss_mods s)) by (eapply counted_once; eassumption).
    pose proof (chain_opt (ss_mods s) (put U h (ss_gen s) b') y (counted_put _ _ _ _ (counted_tail _ _ _ C))) as H.
    rewrite view_put_map in H by exact N.
    destruct (ss_chain U up uo (put U h (ss_gen s) b') (ss_mods s) y) as [[z h']|], (series_opt bprime bproc (map (view h) (ss_mods s)) y) as [[z' vs]|]; cbn in *; try tauto.
    destruct H as (-> & Hv & Hc & Hu). repeat split.
    + unfold ss_view. f_equal; [|exact Hv]. unfold view, get_mut. rewrite Hu by exact N. apply (get_mut_put_same _ _ _ _ V).
    + intro q. rewrite Hc. apply count_put.
    + intros q Hq. unfold ss_handles in Hq. rewrite Hu by (intro; apply Hq; right; assumption).
      apply untouched_put with (ps := ss_gen s :: ss_mods s); [left; reflexivity|exact Hq].
  - cbn [bind]. pose proof (chain_opt (ss_mods s) h f0 (counted_tail _ _ _ C)) as H.
    destruct (ss_chain U up uo h (ss_mods s) f0) as [[z h']|], (series_opt bprime bproc (map (view h) (ss_mods s)) f0) as [[z' vs]|]; cbn in *; try tauto.
    destruct H as (-> & Hv & Hc & Hu). repeat split; [|exact Hc|].
    + unfold ss_view. f_equal; [|exact Hv]. unfold view. unfold get_mut in *.
      destruct (in_dec Nat.eq_dec (ss_gen s) (ss_mods s)) as [Hp|Hp].
      * specialize (C (ss_gen s) (or_introl eq_refl)). cbn in C. destruct (Nat.eq_dec (ss_gen s) (ss_gen s)); [|congruence].
        apply (count_occ_In Nat.eq_dec) in Hp. specialize (Hc (ss_gen s)). unfold count in *. destruct (nth_error h' (ss_gen s)) as [c'|]; [|reflexivity].
        destruct (Z.eqb_spec (c_count U c') 1); [|reflexivity]. destruct (nth_error h (ss_gen s)); lia.
      * rewrite Hu by exact Hp. exact V.
    + intros q Hq. apply Hu. intro; apply Hq; right; assumption.
Qed.
Definition outputs {A S} (r : res (list A * S)) : res (list A) := do (ys, _) <- r; Ok ys.
Lemma simple_series_history s : ss_paused s = false -> ss_muted s = false -> forall xs h, counted h (ss_handles s) ->
  outputs (run_res (ss_process U up uo s) h xs) =
  outputs (run_res (simple_spec bprime bproc (ss_in s) (ss_out s)) (ss_view s h) xs).
Proof.
  intros P M. induction xs as [|x xs IH]; intros h C; [reflexivity|]. cbn [run_res].
  pose proof (simple_series s h x C P M) as H.
  destruct (ss_process U up uo s h x) as [[y h']|], (simple_spec bprime bproc (ss_in s) (ss_out s) (ss_view s h) x) as [[z v]|]; cbn in H; try tauto; try reflexivity.
  destruct H as (-> & <- & Hc & _). cbn [bind]. assert (C' : counted h' (ss_handles s)) by (intros q Hq; rewrite Hc; apply C, Hq).
  specialize (IH h' C'). destruct (run_res (ss_process U up uo s) h' xs) as [[ys h2]|], (run_res (simple_spec bprime bproc (ss_in s) (ss_out s)) (ss_view s h') xs) as [[zs v2]|];
    cbn in *; try discriminate; [|reflexivity]. injection IH as ->. reflexivity.
Qed.

(** ** clones *)
Lemma incr_count d h p q : nth_error h p <> None -> count (incr U d h p) q = (count h q + if Nat.eq_dec p q then d else 0)%Z.
Proof.
  intro E. unfold count, incr. destruct (Nat.eq_dec p q) as [<-|N].
  - rewrite nth_upd_same. destruct (nth_error h p); [reflexivity|congruence].
  - rewrite nth_upd_other by exact N. lia.
Qed.
Lemma clones_spec d ps : forall h, (forall p, In p ps -> nth_error h p <> None) -> forall q, nth_error (fold_left (incr U d) ps h) q =
  option_map (fun c => mkCell U (c_count U c + d * Z.of_nat (count_occ Nat.eq_dec ps q)) (c_block U c)) (nth_error h q).
Proof.
  induction ps as [|p ps IH]; intros h E q; cbn [fold_left].
  - cbn. destruct (nth_error h q) as [[c b]|]; cbn; [|reflexivity]. do 2 f_equal. lia.
  - rewrite IH.
    + unfold incr. destruct (Nat.eq_dec p q) as [->|N].
      * rewrite nth_upd_same. destruct (nth_error h q) as [[c b]|]; cbn; [|reflexivity]. do 2 f_equal. destruct (Nat.eq_dec q q); [|congruence]. lia.
      * rewrite nth_upd_other by exact N. cbn. destruct (Nat.eq_dec p q); [congruence|]. reflexivity.
    + intros q' Hq'. unfold incr. destruct (Nat.eq_dec p q') as [->|N].
      * rewrite nth_upd_same. specialize (E q' (or_introl eq_refl)). destruct (nth_error h q'); [discriminate|congruence].
      * rewrite nth_upd_other by exact N. apply E. right. exact Hq'.
Qed.
Lemma nth_error_ext {A} (l l' : list A) : (forall n, nth_error l n = nth_error l' n) -> l = l'.
Proof.
  revert l'. induction l as [|a l IH]; intros [|b l'] H; [reflexivity|discriminate (H 0)|discriminate (H 0)|].
  pose proof (H 0) as H0. injection H0 as ->. f_equal. apply IH. intro n. exact (H (S n)).
Qed.
Lemma counted_alive h ps p : counted h ps -> In p ps -> nth_error h p <> None.
Proof. intros C Hp E. specialize (C p Hp). unfold count in C. rewrite E in C. apply (count_occ_In Nat.eq_dec) in Hp. lia. Qed.
Lemma clone_drop ps h : counted h ps -> fold_left (incr U (-1)) ps (fold_left (incr U 1) ps h) = h.
Proof.
  intro C. apply nth_error_ext. intro q. rewrite clones_spec.
  - rewrite clones_spec by (intros p Hp; eapply counted_alive; eassumption).
    destruct (nth_error h q) as [[c b]|]; cbn [option_map c_count c_block]; [|reflexivity]. do 2 f_equal. lia.
  - intros p Hp. rewrite clones_spec by (intros p' Hp'; eapply counted_alive; eassumption).
    pose proof (counted_alive h ps p C Hp). destruct (nth_error h p); [discriminate|congruence].
Qed.
Lemma clone_shared ps h p : counted h ps -> In p ps -> get_mut U (fold_left (incr U 1) ps h) p = None.
Proof.
  intros C Hp. unfold get_mut. rewrite clones_spec by (intros p' Hp'; eapply counted_alive; eassumption).
  pose proof (C p Hp) as K. unfold count in K. destruct (nth_error h p) as [[c b]|]; cbn [option_map c_count c_block] in *; [|reflexivity].
  apply (count_occ_In Nat.eq_dec) in Hp. destruct (Z.eqb_spec (c + 1 * Z.of_nat (count_occ Nat.eq_dec ps p)) 1); [lia|reflexivity].
Qed.
Lemma chain_silent ps h x : (forall p, In p ps -> get_mut U h p = None) -> ss_chain U up uo h ps x = Ok (x, h).
Proof.
  induction ps as [|p ps IH]; intro H; [reflexivity|]. cbn. rewrite (H p (or_introl eq_refl)). apply IH. intros q Hq. apply H. right. exact Hq.
Qed.
Lemma simple_clone s h : counted h (ss_handles s) ->
  let '(s', h') := ss_clone U s h in
  s' = s /\ ss_drop U s' h' = h /\
  forall x, ss_process U up uo s h' x = Ok (if ss_paused s || ss_muted s then f0 else fmul f0 (ss_out s), h').
Proof.
  intro C. cbn. split; [reflexivity|]. split; [apply (clone_drop (ss_handles s) h C)|]. intro x.
  unfold ss_process. destruct (ss_paused s); [reflexivity|]. cbn [orb].
  assert (Q : forall p, In p (ss_handles s) -> get_mut U (fold_left (arc_clone U) (ss_handles s) h) p = None) by (intros p Hp; apply clone_shared; assumption).
  unfold ss_handles in *. cbn [fold_left] in *. rewrite (Q (ss_gen s) (or_introl eq_refl)). cbn [bind].
  rewrite chain_silent by (intros p Hp; apply Q; right; exact Hp). reflexivity.
Qed.
Lemma complex_clone s h p : counted h (g_nodes (cs_graph s)) -> nth_error (g_nodes (cs_graph s)) (cs_ig s) = Some p ->
  let '(s', h') := cs_clone U s h in
  s' = s /\ cs_drop U s' h' = h /\
  forall x, cs_process U up uo s h' x = if cs_paused s then Ok (f0, h') else Panic.
Proof.
  intros C E. unfold cs_clone. split; [reflexivity|]. split; [apply (clone_drop _ h C)|]. intro x. unfold cs_process. destruct (cs_paused s); [reflexivity|].
  assert (Q : get_mut U (fold_left (arc_clone U) (g_nodes (cs_graph s)) h) p = None) by exact (clone_shared _ h p C (nth_error_In _ _ E)).
  unfold prime_node, node_mut. rewrite E. cbn [unwrap bind]. rewrite Q. reflexivity.
Qed.
End Heap.
