(** * StandardChannel *)
From Coq Require Import ZArith List Bool Lia Arith.
From Verif Require Import Model.Floats Model.Utils Model.Generators Model.Modifiers Model.Sounds Model.Channel Proof.GenericP Proof.OrderP Proof.SoundsP2.
Import ListNotations.

(** ** everything done to a channel and to the handles of its sounds *)
Inductive hop := HAdd (p : handle) | HRemove (id : Z) | HGain (g : f64) | HTime (d : duration) | HProcess | HClone (p : handle) | HDrop (p : handle).
Definition is_add (o : hop) : bool := match o with HAdd _ => true | _ => false end.
Definition adds (ops : list hop) : Z := Z.of_nat (length (filter is_add ops)).
Definition handed (o : hop) (p : handle) : Z :=
  match o with HClone q => if Nat.eqb q p then 1 else 0 | HDrop q => if Nat.eqb q p then -1 else 0 | _ => 0 end.
(** handles the user has made minus those dropped *)
Definition user_handles (ops : list hop) (p : handle) : Z := fold_right (fun o n => handed o p + n)%Z 0%Z ops.

Lemma run_snoc {St X Y} (step : St -> X -> res (Y * St)) ops o : forall st ys st', run_res step st (ops ++ [o]) = Ok (ys, st') ->
  exists ys1 st1 y, run_res step st ops = Ok (ys1, st1) /\ step st1 o = Ok (y, st') /\ ys = ys1 ++ [y].
Proof.
  induction ops as [|a ops IH]; intros st ys st' E.
  - cbn in E. destruct (step st o) as [[y s]|] eqn:S1; [|discriminate]. cbn in E. injection E as <- <-. exists [], st, y. auto.
  - cbn in E. destruct (step st a) as [[y s]|] eqn:S1; [|discriminate]. cbn in E.
    destruct (run_res step s (ops ++ [o])) as [[zs s2]|] eqn:R; [|discriminate]. cbn in E. injection E as <- <-.
    destruct (IH _ _ _ R) as (ys1 & st1 & y1 & R1 & S2 & ->). exists (y :: ys1), st1, y1. cbn. rewrite S1. cbn. rewrite R1. auto.
Qed.
Lemma run_len {St X Y} (step : St -> X -> res (Y * St)) ops : forall st ys st', run_res step st ops = Ok (ys, st') -> length ys = length ops.
Proof.
  induction ops as [|a ops IH]; intros st ys st' E; cbn in E; [injection E as <- <-; reflexivity|].
  destruct (step st a) as [[y s]|]; [|discriminate]. cbn in E. destruct (run_res step s ops) as [[zs s2]|] eqn:R; [|discriminate].
  cbn in E. injection E as <- <-. cbn. f_equal. eapply IH, R.
Qed.

Section Channel.
Variable SF : Type. Variable sf_default : SF. Variable sf_from_sample : f32 -> SF. Variable sf_add : SF -> SF -> SF.
Variable sf_mul_s : SF -> f32 -> SF. Variable max_capacity : Z. Variable overflow_checks : bool.
Variable S : Type. Variable s_register : S -> Z -> S. Variable s_get_id : S -> option Z. Variable s_process : S -> f32 -> res (f32 * S).
Local Notation channel := (channel SF). Local Notation sheap := (sheap S).
Definition id_at (h : sheap) (p : handle) : option Z := match nth_error h p with Some c => s_get_id (s_sound S c) | None => None end.
Definition ch_step (st : channel * sheap) (o : hop) : res (option Z * (channel * sheap)) :=
  let '(c, h) := st in
  match o with
  | HAdd p => do (c', h') <- ch_add_sound SF overflow_checks S s_register c h p; Ok (id_at h' p, (c', h'))
  | HRemove id => Ok (None, ch_remove_sound SF S c h id)
  | HGain g => Ok (None, (ch_set_gain SF c g, h))
  | HTime d => do c' <- ch_set_process_time SF max_capacity c d; Ok (None, (c', h))
  | HProcess => do (c', h') <- ch_process SF sf_default sf_from_sample sf_add sf_mul_s S s_process c h; Ok (None, (c', h'))
  | HClone p => Ok (None, (c, s_incr S 1 h p))
  | HDrop p => Ok (None, (c, s_incr S (-1) h p))
  end.

(** ** the output is always empty *)
Lemma output_empty o st y st' : ch_output SF (fst st) = [] -> ch_step st o = Ok (y, st') -> ch_output SF (fst st') = [].
Proof.
  destruct st as [c h]. cbn. intros E H. destruct o; cbn in H.
  - unfold ch_add_sound, ch_get_id in H. destruct (ch_counter SF c + 1 <? 2 ^ 64)%Z; cbn [bind] in H;
      [|destruct overflow_checks; [discriminate|cbn [bind] in H]];
      (destruct (s_get_mut S h p); [|discriminate]; injection H as <- <-; exact E).
  - injection H as <- <-. exact E.
  - injection H as <- <-. exact E.
  - unfold ch_set_process_time, with_capacity in H. destruct (_ <=? max_capacity)%Z; [|discriminate]. injection H as <- <-. reflexivity.
  - unfold ch_process in H. rewrite E in H. cbn in H. injection H as <- <-. reflexivity.
  - injection H as <- <-. exact E.
  - injection H as <- <-. exact E.
Qed.
Lemma output_empty_history ops g h : forall ys st, run_res ch_step (ch_new SF g, h) ops = Ok (ys, st) -> ch_output SF (fst st) = [].
Proof.
  induction ops as [|o ops IH] using rev_ind; intros ys st E.
  - cbn in E. injection E as <- <-. reflexivity.
  - apply run_snoc in E. destruct E as (ys1 & st1 & y & R & S1 & _). eapply output_empty; [|exact S1]. eapply IH, R.
Qed.
Lemma process_does_nothing c h : ch_output SF c = [] ->
  ch_process SF sf_default sf_from_sample sf_add sf_mul_s S s_process c h = Ok (c, h).
Proof. intro E. unfold ch_process. rewrite E. cbn. destruct c. cbn in E. subst. reflexivity. Qed.

(** ** ids *)
Definition cinv (ops : list hop) (c : channel) : Prop :=
  ch_counter SF c = adds ops /\ NoDup (map fst (ch_sounds SF c)) /\
  (forall id p, In (id, p) (ch_sounds SF c) <->
     exists pre post, ops = pre ++ HAdd p :: post /\ id = adds pre /\ ~ In (HRemove id) post).
Lemma adds_app a b : adds (a ++ b) = (adds a + adds b)%Z.
Proof. unfold adds. rewrite filter_app, app_length. lia. Qed.
Lemma adds_pos a : (0 <= adds a)%Z.
Proof. unfold adds. lia. Qed.
Lemma map_remove_In id l e : In e (map_remove id l) <-> In e l /\ fst e <> id.
Proof. unfold map_remove. rewrite filter_In, negb_true_iff, Z.eqb_neq. reflexivity. Qed.
Lemma map_remove_NoDup id l : NoDup (map fst l) -> NoDup (map fst (map_remove id l)).
Proof.
  induction l as [|e l IH]; intro N; [constructor|]. cbn in *. inversion N as [|? ? N1 N2]; subst. destruct (fst e =? id)%Z; cbn; [auto|].
  constructor; [|auto]. intro H. apply N1. apply in_map_iff in H. destruct H as (x & E & H). apply map_remove_In in H. rewrite <- E. apply in_map, H.
Qed.
Lemma map_remove_id id l : ~ In id (map fst l) -> map_remove id l = l.
Proof.
  unfold map_remove. induction l as [|e l IH]; intro N; [reflexivity|]. cbn in *. destruct (Z.eqb_spec (fst e) id); [tauto|]. cbn. f_equal. tauto.
Qed.
Lemma map_find_None id l : ~ In id (map fst l) -> map_find id l = None.
Proof.
  unfold map_find. induction l as [|e l IH]; intro N; [reflexivity|]. cbn in *. destruct (Z.eqb_spec (fst e) id); [tauto|]. tauto.
Qed.
Lemma map_find_In id l p : NoDup (map fst l) -> (map_find id l = Some p <-> In (id, p) l).
Proof.
  unfold map_find. induction l as [|[i q] l IH]; intro N; cbn; [split; [discriminate|intros []]|]. cbn in N. inversion N as [|? ? N1 N2]; subst.
  destruct (Z.eqb_spec i id) as [->|Ni]; cbn.
  - split; [intro E; injection E as ->; auto|]. intros [E|H]; [congruence|]. exfalso. apply N1. change id with (fst (id, p)). apply in_map, H.
  - rewrite IH by exact N2. split; [auto|]. intros [E|H]; [congruence|exact H].
Qed.
Lemma snoc_issue ops o p id : (exists pre post, ops ++ [o] = pre ++ HAdd p :: post /\ id = adds pre /\ ~ In (HRemove id) post) <->
  (o = HAdd p /\ id = adds ops) \/ (o <> HRemove id /\ exists pre post, ops = pre ++ HAdd p :: post /\ id = adds pre /\ ~ In (HRemove id) post).
Proof.
  split.
  - intros (pre & post & E & I & N). destruct post as [|z post] using rev_ind.
    + apply app_inj_tail in E. destruct E as [-> ->]. left. auto.
    + clear IHpost. rewrite app_comm_cons, app_assoc in E. apply app_inj_tail in E. destruct E as [-> ->]. right. split.
      * intros ->. apply N. apply in_or_app. right. left. reflexivity.
      * exists pre, post. split; [reflexivity|]. split; [exact I|]. intro H. apply N. apply in_or_app. auto.
  - intros [[-> ->]|[No (pre & post & -> & I & N)]].
    + exists ops, []. split; [reflexivity|]. split; [reflexivity|]. intros [].
    + exists pre, (post ++ [o]). rewrite <- app_assoc. split; [reflexivity|]. split; [exact I|]. intro H. apply in_app_or in H. destruct H as [H|[H|[]]]; [exact (N H)|congruence].
Qed.
Lemma cinv_bound ops c id p : cinv ops c -> In (id, p) (ch_sounds SF c) -> (id < adds ops)%Z.
Proof.
  intros (_ & _ & C) H. apply C in H. destruct H as (pre & post & -> & -> & _). rewrite adds_app. unfold adds at 3. cbn. lia.
Qed.
Lemma cinv_keep ops c c' o : cinv ops c -> ch_sounds SF c' = ch_sounds SF c -> ch_counter SF c' = ch_counter SF c ->
  is_add o = false -> (forall id, o <> HRemove id) -> cinv (ops ++ [o]) c'.
Proof.
  intros (C1 & C2 & C3) E1 E2 A R. split; [|split].
  - rewrite E2, C1, adds_app. unfold adds. cbn. rewrite A. cbn. lia.
  - rewrite E1. exact C2.
  - intros id p. rewrite E1, snoc_issue, C3. split; [intro H; right; split; [apply R|exact H]|]. intros [[-> _]|[_ H]]; [discriminate|exact H].
Qed.
Lemma cinv_step ops st o y st' : cinv ops (fst st) -> (adds (ops ++ [o]) < 2 ^ 64)%Z -> ch_step st o = Ok (y, st') -> cinv (ops ++ [o]) (fst st').
Proof.
  destruct st as [c h]. intros C B H. cbn [fst] in C. pose proof C as (C1 & C2 & C3). destruct o; cbn in H.
  - unfold ch_add_sound, ch_get_id in H. rewrite adds_app in B. change (adds [HAdd p]) with 1%Z in B.
    destruct (Z.ltb_spec (ch_counter SF c + 1) (2 ^ 64)); [|lia]. cbn [bind] in H.
    destruct (s_get_mut S h p) as [s|]; [|discriminate]. cbn [unwrap bind] in H. injection H as <- <-. cbn [fst].
    assert (F : ~ In (ch_counter SF c) (map fst (ch_sounds SF c))).
    { intro K. apply in_map_iff in K. destruct K as ([id q] & E & K). cbn in E. subst id. pose proof (cinv_bound _ _ _ _ C K). lia. }
    split; [|split]; cbn [ch_counter ch_sounds].
    + rewrite adds_app, C1. reflexivity.
    + cbn. constructor; [|apply map_remove_NoDup, C2]. rewrite map_remove_id by exact F. exact F.
    + intros id q. rewrite map_remove_id by exact F. rewrite snoc_issue. cbn [In]. rewrite C3. split.
      * intros [E|E]; [injection E as <- <-; left; split; [reflexivity|exact C1]|right; split; [discriminate|exact E]].
      * intros [[E1 E2]|[_ E]]; [left; injection E1 as ->; congruence|right; exact E].
  - injection H as <- <-. cbn [fst ch_remove_sound]. split; [|split]; cbn [ch_counter ch_sounds].
    + rewrite C1, adds_app. unfold adds. cbn. lia.
    + apply map_remove_NoDup, C2.
    + intros i p. rewrite map_remove_In, snoc_issue, C3. cbn [fst]. split.
      * intros [E N]. right. split; [congruence|exact E].
      * intros [[E _]|[N E]]; [discriminate|]. split; [exact E|congruence].
  - injection H as <- <-. apply (cinv_keep ops c); auto; discriminate.
  - unfold ch_set_process_time, with_capacity in H. destruct (_ <=? max_capacity)%Z; [|discriminate]. injection H as <- <-. apply (cinv_keep ops c); auto; discriminate.
  - unfold ch_process in H. destruct (fill _ _ _ _ _ _ _ _ _ _) as [[v h']|]; [|discriminate]. cbn in H. injection H as <- <-. apply (cinv_keep ops c); auto; discriminate.
  - injection H as <- <-. apply (cinv_keep ops c); auto; discriminate.
  - injection H as <- <-. apply (cinv_keep ops c); auto; discriminate.
Qed.
Lemma adds_le a b : (adds a <= adds (a ++ b))%Z.
Proof. rewrite adds_app. pose proof (adds_pos b). lia. Qed.
Lemma cinv_history g h ops : forall ys st, (adds ops < 2 ^ 64)%Z -> run_res ch_step (ch_new SF g, h) ops = Ok (ys, st) -> cinv ops (fst st).
Proof.
  induction ops as [|o ops IH] using rev_ind; intros ys st B E.
  - cbn in E. injection E as <- <-. split; [reflexivity|]. split; [constructor|]. intros id p. split; [intros []|].
    intros (pre & post & K & _). destruct pre; discriminate.
  - apply run_snoc in E. destruct E as (ys1 & st1 & y & R & S1 & _). eapply cinv_step; [|exact B|exact S1].
    eapply IH; [|exact R]. pose proof (adds_le ops [o]). lia.
Qed.
Lemma nth_s_put h p s : nth_error (s_put S h p s) p = option_map (fun c => mkS S (s_count S c) s) (nth_error h p).
Proof. apply nth_upd_same. Qed.
Lemma s_get_mut_spec h p s : s_get_mut S h p = Some s <-> nth_error h p = Some (mkS S 1 s).
Proof.
  unfold s_get_mut. destruct (nth_error h p) as [[n t]|]; cbn; [|split; discriminate]. destruct (Z.eqb_spec n 1) as [->|N].
  - split; intro E; injection E as ->; reflexivity.
  - split; [discriminate|]. intro E. injection E. contradiction.
Qed.
Lemma add_id c h p id' h' c' : (forall s id, s_get_id (s_register s id) = Some id) ->
  (ch_counter SF c + 1 < 2 ^ 64)%Z -> ch_add_sound SF overflow_checks S s_register c h p = Ok (c', h') -> id_at h' p = id' -> id' = Some (ch_counter SF c).
Proof.
  intros L B H <-. unfold ch_add_sound, ch_get_id in H. destruct (Z.ltb_spec (ch_counter SF c + 1) (2 ^ 64)); [|lia]. cbn [bind] in H.
  destruct (s_get_mut S h p) as [s|] eqn:G; [|discriminate]. cbn [unwrap bind] in H. injection H as <- <-.
  apply s_get_mut_spec in G. unfold id_at.
  assert (D : forall h q s0 n, nth_error h p = Some (mkS S n s0) -> exists n', nth_error (drop_found S h q) p = Some (mkS S n' s0)).
  { intros h1 [q|] s0 n E; cbn; [|eauto]. unfold s_incr. destruct (Nat.eq_dec q p) as [->|N]; [rewrite nth_upd_same, E; cbn; eauto|rewrite nth_upd_other by exact N; eauto]. }
  destruct (D (s_incr S 1 (s_put S h p (s_register s (ch_counter SF c))) p) (map_find (ch_counter SF c) (ch_sounds SF c)) (s_register s (ch_counter SF c)) 2%Z) as [n' E].
  - unfold s_incr. rewrite nth_upd_same, nth_s_put, G. reflexivity.
  - cbn [ch_sounds] in *. rewrite E. cbn. apply L.
Qed.
Lemma issued_ids g h : (forall s id, s_get_id (s_register s id) = Some id) -> forall ops ys st, (adds ops < 2 ^ 64)%Z ->
  run_res ch_step (ch_new SF g, h) ops = Ok (ys, st) ->
  forall pre p post, ops = pre ++ HAdd p :: post -> nth_error ys (length pre) = Some (Some (adds pre)).
Proof.
  intro L. induction ops as [|o ops IH] using rev_ind; intros ys st B E pre p post D; [destruct pre; discriminate|].
  pose proof (adds_le ops [o]) as Bo.
  apply run_snoc in E. destruct E as (ys1 & [c1 h1] & y & R & S1 & ->). pose proof (run_len _ _ _ _ _ R) as Ly.
  assert (C := cinv_history g h ops _ _ ltac:(lia) R).
  destruct post as [|z post] using rev_ind.
  - apply app_inj_tail in D. destruct D as [-> ->]. rewrite nth_error_app2, Ly, Nat.sub_diag by lia. cbn. f_equal.
    cbn in S1. destruct (ch_add_sound SF overflow_checks S s_register c1 h1 p) as [[c2 h2]|] eqn:A; [|discriminate]. cbn in S1. injection S1 as <- <-.
    destruct C as (C1 & _). cbn [fst] in C1. rewrite <- C1. eapply add_id; [exact L| |exact A|reflexivity].
    rewrite adds_app in B. change (adds [HAdd p]) with 1%Z in B. lia.
  - clear IHpost. rewrite app_comm_cons, app_assoc in D. apply app_inj_tail in D. destruct D as [-> ->].
    rewrite nth_error_app1.
    + eapply IH; [lia|exact R|reflexivity].
    + rewrite Ly, app_length. cbn. lia.
Qed.

(** ** handles *)
Definition scount (h : sheap) (p : handle) : Z := match nth_error h p with Some c => s_count S c | None => 0%Z end.
Lemma scount_put h p s q : scount (s_put S h p s) q = scount h q.
Proof.
  unfold scount, s_put. destruct (Nat.eq_dec p q) as [->|N]; [|rewrite nth_upd_other by exact N; reflexivity].
  rewrite nth_upd_same. destruct (nth_error h q); reflexivity.
Qed.
Lemma scount_incr d h p q : (q < length h)%nat -> scount (s_incr S d h p) q = (scount h q + if Nat.eqb p q then d else 0)%Z.
Proof.
  intro L. unfold scount, s_incr. destruct (Nat.eqb_spec p q) as [->|N].
  - rewrite nth_upd_same. apply nth_error_Some in L. destruct (nth_error h q); [reflexivity|congruence].
  - rewrite nth_upd_other by exact N. lia.
Qed.
Definition entries (l : list (Z * handle)) (p : handle) : Z := Z.of_nat (length (filter (fun e => Nat.eqb (snd e) p) l)).
Lemma entries_cons id q l p : entries ((id, q) :: l) p = ((if Nat.eqb q p then 1 else 0) + entries l p)%Z.
Proof. unfold entries. cbn. destruct (Nat.eqb q p); cbn [length]; lia. Qed.
Lemma entries_remove id l p : NoDup (map fst l) ->
  entries (map_remove id l) p = (entries l p - match map_find id l with Some q => if Nat.eqb q p then 1 else 0 | None => 0 end)%Z.
Proof.
  induction l as [|[i q] l IH]; intro N; [reflexivity|]. cbn in N. inversion N as [|? ? N1 N2]; subst.
  unfold map_find, map_remove. cbn [find filter fst negb]. destruct (Z.eqb_spec i id) as [->|Ni]; cbn [negb].
  - fold (map_remove id l). rewrite map_remove_id by exact N1. rewrite entries_cons. cbn. lia.
  - fold (map_remove id l). fold (map_find id l). rewrite !entries_cons, IH by exact N2. lia.
Qed.
Lemma entries_In id l p : In (id, p) l -> (1 <= entries l p)%Z.
Proof.
  induction l as [|[i q] l IH]; intros []; rewrite entries_cons.
  - injection H as -> ->. rewrite Nat.eqb_refl. unfold entries. lia.
  - specialize (IH H). destruct (Nat.eqb q p); lia.
Qed.
Lemma drop_found_count h o q : (q < length h)%nat -> scount (drop_found S h o) q = (scount h q - match o with Some p => if Nat.eqb p q then 1 else 0 | None => 0 end)%Z.
Proof. intro L. destruct o as [p|]; cbn; [rewrite scount_incr by exact L; destruct (Nat.eqb p q); lia|lia]. Qed.
Lemma incr_len d h p : length (s_incr S d h p) = length h. Proof. apply upd_length. Qed.
Lemma put_len h p s : length (s_put S h p s) = length h. Proof. apply upd_length. Qed.
Lemma drop_len h o : length (drop_found S h o) = length h. Proof. destruct o; [apply incr_len|reflexivity]. Qed.
Definition haccounted (ops : list hop) (h0 : sheap) (st : channel * sheap) : Prop :=
  length (snd st) = length h0 /\ forall p, (p < length h0)%nat -> scount (snd st) p = (scount h0 p + user_handles ops p + entries (ch_sounds SF (fst st)) p)%Z.
Lemma user_snoc ops o p : user_handles (ops ++ [o]) p = (user_handles ops p + handed o p)%Z.
Proof. unfold user_handles. induction ops as [|a ops IH]; cbn; [lia|]. rewrite IH. lia. Qed.
Lemma account_history g h0 ops : forall ys st, (adds ops < 2 ^ 64)%Z -> run_res ch_step (ch_new SF g, h0) ops = Ok (ys, st) -> haccounted ops h0 st.
Proof.
  induction ops as [|o ops IH] using rev_ind; intros ys st B E.
  - cbn in E. injection E as <- <-. split; [reflexivity|]. intros p _. cbn. unfold entries. cbn. lia.
  - pose proof (adds_le ops [o]) as Bo. pose proof E as E0. apply run_snoc in E. destruct E as (ys1 & [c h] & y & R & S1 & _).
    destruct (IH _ _ ltac:(lia) R) as [Lh A]. cbn [fst snd] in *.
    assert (C := cinv_history g h0 ops _ _ ltac:(lia) R). destruct C as (C1 & C2 & C3). cbn [fst] in *.
    assert (O := output_empty_history _ _ _ _ _ R). cbn [fst] in O.
    destruct o; cbn in S1.
    + unfold ch_add_sound, ch_get_id in S1. rewrite adds_app in B. change (adds [HAdd p]) with 1%Z in B.
      destruct (Z.ltb_spec (ch_counter SF c + 1) (2 ^ 64)); [|lia]. cbn [bind] in S1.
      destruct (s_get_mut S h p) as [s|]; [|discriminate]. cbn [unwrap bind] in S1. injection S1 as <- <-. cbn [fst snd ch_sounds]. split.
      * cbn [snd]. rewrite drop_len, incr_len, put_len. exact Lh.
      * intros q Hq. cbn [fst snd ch_sounds]. rewrite drop_found_count by (rewrite incr_len, put_len, Lh; exact Hq). rewrite scount_incr by (rewrite put_len, Lh; exact Hq). rewrite scount_put, A by exact Hq.
        rewrite entries_cons, entries_remove by exact C2. rewrite user_snoc. cbn [handed].
        destruct (map_find (ch_counter SF c) (ch_sounds SF c)) as [q'|]; destruct (Nat.eqb p q); try destruct (Nat.eqb q' q); lia.
    + injection S1 as <- <-. unfold ch_remove_sound. split; cbn [fst snd ch_sounds].
      * rewrite drop_len. exact Lh.
      * intros q Hq. rewrite drop_found_count by (rewrite Lh; exact Hq). rewrite A, entries_remove, user_snoc by assumption. cbn [handed]. lia.
    + injection S1 as <- <-. split; [exact Lh|]. intros q Hq. cbn [fst snd ch_set_gain ch_sounds]. rewrite A, user_snoc by exact Hq. cbn [handed]. lia.
    + unfold ch_set_process_time, with_capacity in S1. destruct (_ <=? max_capacity)%Z; [|discriminate]. injection S1 as <- <-. split; [exact Lh|].
      intros q Hq. cbn [fst snd ch_sounds]. rewrite A, user_snoc by exact Hq. cbn [handed]. lia.
    + rewrite process_does_nothing in S1 by exact O. cbn in S1. injection S1 as <- <-. split; [exact Lh|]. intros q Hq. cbn [fst snd]. rewrite A, user_snoc by exact Hq. cbn [handed]. lia.
    + injection S1 as <- <-. split; cbn [fst snd]; [rewrite incr_len; exact Lh|]. intros q Hq. rewrite scount_incr, A, user_snoc by (rewrite ?Lh; exact Hq). cbn [handed]. lia.
    + injection S1 as <- <-. split; cbn [fst snd]; [rewrite incr_len; exact Lh|]. intros q Hq. rewrite scount_incr, A, user_snoc by (rewrite ?Lh; exact Hq). cbn [handed]. lia.
Qed.
Lemma add_panics_iff c h p : (ch_counter SF c + 1 < 2 ^ 64)%Z ->
  (ch_add_sound SF overflow_checks S s_register c h p = Panic <-> scount h p <> 1%Z).
Proof.
  intro B. unfold ch_add_sound, ch_get_id. destruct (Z.ltb_spec (ch_counter SF c + 1) (2 ^ 64)); [|lia]. cbn [bind]. unfold s_get_mut, scount.
  destruct (nth_error h p) as [[n s]|]; cbn; [|split; [intros; discriminate|reflexivity]].
  destruct (Z.eqb_spec n 1); cbn; split; try discriminate; try congruence; auto.
Qed.
Lemma add_twice_panics g h0 pre p mid ys st : (adds (pre ++ HAdd p :: mid) + 1 < 2 ^ 64)%Z -> (p < length h0)%nat ->
  run_res ch_step (ch_new SF g, h0) (pre ++ HAdd p :: mid) = Ok (ys, st) ->
  ~ In (HRemove (adds pre)) mid ->
  (1 <= scount h0 p + user_handles (pre ++ HAdd p :: mid) p)%Z ->
  ch_step st (HAdd p) = Panic.
Proof.
  intros B Lp R N U. assert (B' : (adds (pre ++ HAdd p :: mid) < 2 ^ 64)%Z) by lia. assert (C := cinv_history g h0 _ _ _ B' R). destruct (account_history g h0 _ _ _ B' R) as [L A].
  destruct st as [c h]. cbn [fst snd] in *. assert (P : ch_add_sound SF overflow_checks S s_register c h p = Panic).
  { apply add_panics_iff; [destruct C as (C1 & _); cbn [fst] in C1; rewrite C1; exact B|]. rewrite A by exact Lp.
    assert (I : In (adds pre, p) (ch_sounds SF c)) by (apply C; exists pre, mid; auto). apply entries_In in I. lia. }
  cbn. rewrite P. reflexivity.
Qed.
(** ** removal *)
Lemma remove_keeps c h id p : id_at (snd (ch_remove_sound SF S c h id)) p = id_at h p.
Proof.
  unfold id_at. cbn. destruct (map_find id (ch_sounds SF c)) as [q|]; cbn; [|reflexivity]. unfold s_incr.
  destruct (Nat.eq_dec q p) as [->|N]; [rewrite nth_upd_same; destruct (nth_error h p); reflexivity|rewrite nth_upd_other by exact N; reflexivity].
Qed.
(** the id of a sound only changes in add_sound *)
Lemma id_kept ops p : ~ In (HAdd p) ops -> forall st ys st', ch_output SF (fst st) = [] -> run_res ch_step st ops = Ok (ys, st') -> id_at (snd st') p = id_at (snd st) p.
Proof.
  induction ops as [|o ops IH]; intros N st ys st' O E; [cbn in E; injection E as <- <-; reflexivity|].
  cbn in E. destruct (ch_step st o) as [[y s1]|] eqn:S1; [|discriminate]. cbn in E. destruct (run_res ch_step s1 ops) as [[ys1 s2]|] eqn:R; [|discriminate].
  cbn in E. injection E as <- <-. pose proof (output_empty _ _ _ _ O S1) as O1.
  rewrite (IH (fun H => N (or_intror H)) _ _ _ O1 R). clear IH R. destruct st as [c h]. cbn [fst snd] in *.
  assert (I : forall d q, id_at (s_incr S d h q) p = id_at h p).
  { intros d q. unfold id_at, s_incr. destruct (Nat.eq_dec q p) as [->|Nq]; [rewrite nth_upd_same; destruct (nth_error h p); reflexivity|rewrite nth_upd_other by exact Nq; reflexivity]. }
  destruct o; cbn in S1.
  - assert (Np : p0 <> p) by (intros ->; apply N; left; reflexivity).
    destruct (ch_add_sound SF overflow_checks S s_register c h p0) as [[c2 h2]|] eqn:A; [|discriminate]. cbn in S1. injection S1 as <- <-. cbn [snd].
    unfold ch_add_sound in A. destruct (ch_get_id SF overflow_checks c) as [[id c1]|]; [|discriminate]. cbn [bind] in A.
    destruct (s_get_mut S h p0) as [s|]; [|discriminate]. cbn [unwrap bind] in A. injection A as <- <-.
    unfold id_at. destruct (map_find id (ch_sounds SF c1)) as [q|]; cbn [drop_found]; unfold s_incr, s_put.
    + destruct (Nat.eq_dec q p) as [->|Nq].
      * rewrite nth_upd_same, !nth_upd_other by exact Np. destruct (nth_error h p); reflexivity.
      * rewrite (nth_upd_other _ q) by exact Nq. rewrite !nth_upd_other by exact Np. reflexivity.
    + rewrite !nth_upd_other by exact Np. reflexivity.
  - injection S1 as <- <-. apply remove_keeps.
  - injection S1 as <- <-. reflexivity.
  - destruct (ch_set_process_time SF max_capacity c d); [|discriminate]. cbn in S1. injection S1 as <- <-. reflexivity.
  - rewrite process_does_nothing in S1 by exact O. cbn in S1. injection S1 as <- <-. reflexivity.
  - injection S1 as <- <-. apply I.
  - injection S1 as <- <-. apply I.
Qed.
Lemma id_after_add g h pre p mid ys st : (forall s id, s_get_id (s_register s id) = Some id) -> (adds (pre ++ HAdd p :: mid) < 2 ^ 64)%Z ->
  run_res ch_step (ch_new SF g, h) (pre ++ HAdd p :: mid) = Ok (ys, st) -> ~ In (HAdd p) mid -> id_at (snd st) p = Some (adds pre).
Proof.
  intros L. revert ys st. induction mid as [|o mid IH] using rev_ind; intros ys st B E N.
  - assert (I := issued_ids g h L _ _ _ B E pre p [] eq_refl).
    apply run_snoc in E. destruct E as (ys1 & [c1 h1] & y & R & S1 & ->). rewrite nth_error_app2, (run_len _ _ _ _ _ R), Nat.sub_diag in I by (rewrite (run_len _ _ _ _ _ R); lia).
    cbn in I. injection I as ->. cbn in S1. destruct (ch_add_sound SF overflow_checks S s_register c1 h1 p) as [[c2 h2]|]; [|discriminate]. cbn in S1. injection S1 as I <-. exact I.
  - rewrite app_comm_cons, app_assoc in B, E. apply run_snoc in E. destruct E as (ys1 & st1 & y & R & S1 & ->).
    assert (O := output_empty_history _ _ _ _ _ R).
    assert (B1 : (adds (pre ++ HAdd p :: mid) < 2 ^ 64)%Z) by (pose proof (adds_le (pre ++ HAdd p :: mid) [o]); lia).
    rewrite <- (IH _ _ B1 R) by (intro H; apply N, in_or_app; auto).
    apply (id_kept [o] p) with (ys := [y]); [intros [->|[]]; apply N, in_or_app; right; left; reflexivity|exact O|]. cbn. rewrite S1. reflexivity.
Qed.
End Channel.
