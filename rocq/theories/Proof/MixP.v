(** * StandardChannel: what process does to a buffer of any content, the gain, and the derived Clone *)
From Coq Require Import ZArith List Bool Lia Arith.
From Verif Require Import Model.Floats Model.Utils Model.Generators Model.Modifiers Model.Sounds Model.Channel Proof.GenericP Proof.SoundsP2 Proof.ChannelP.
Import ListNotations.

(** the gain last asked for *)
Definition asked_gain (g : f64) (ops : list hop) : f64 := fold_left (fun g o => match o with HGain g' => g' | _ => g end) ops g.

Section Mix.
Variable SF : Type. Variable sf_default : SF. Variable sf_from_sample : f32 -> SF. Variable sf_add : SF -> SF -> SF.
Variable sf_mul_s : SF -> f32 -> SF. Variable max_capacity : Z. Variable overflow_checks : bool.
Variable S : Type. Variable s_register : S -> Z -> S. Variable s_get_id : S -> option Z. Variable s_process : S -> f32 -> res (f32 * S).
Local Notation channel := (channel SF). Local Notation sheap := (sheap S).
Local Notation mix := (mix SF sf_from_sample sf_add S s_process).
Local Notation fill := (fill SF sf_from_sample sf_add sf_mul_s S s_process).
Local Notation step := (ch_step SF sf_default sf_from_sample sf_add sf_mul_s max_capacity overflow_checks S s_register s_get_id s_process).
Local Notation process := (ch_process SF sf_default sf_from_sample sf_add sf_mul_s S s_process).

Definition mixed (ps : list handle) (y : handle -> f32) (x : SF) : SF := fold_left (fun x p => sf_add x (sf_from_sample (y p))) ps x.
Definition stepped (h h' : sheap) (ps : list handle) (s1 : handle -> S) : Prop :=
  forall p, nth_error h' p = if in_dec Nat.eq_dec p ps then Some (mkS S 1 (s1 p)) else nth_error h p.
Lemma mix_ok l : forall h x (s0 s1 : handle -> S) (y : handle -> f32), NoDup (map snd l) ->
  (forall p, In p (map snd l) -> nth_error h p = Some (mkS S 1 (s0 p)) /\ s_process (s0 p) f0 = Ok (y p, s1 p)) ->
  exists h', mix h l x = Ok (mixed (map snd l) y x, h') /\ stepped h h' (map snd l) s1.
Proof.
  induction l as [|[id q] l IH]; intros h x s0 s1 y N H.
  - exists h. split; [reflexivity|]. intro p. reflexivity.
  - cbn [map snd] in *. inversion N as [|? ? N1 N2]; subst. destruct (H q (or_introl eq_refl)) as [H1 H2].
    assert (G : s_get_mut S h q = Some (s0 q)) by (apply s_get_mut_spec, H1).
    destruct (IH (s_put S h q (s1 q)) (sf_add x (sf_from_sample (y q))) s0 s1 y N2) as (h' & E & T).
    { intros p Hp. destruct (H p (or_intror Hp)) as [A B]. split; [|exact B]. unfold s_put. rewrite nth_upd_other; [exact A|]. intros ->. contradiction. }
    exists h'. split.
    + cbn [Channel.mix unwrap bind]. rewrite G. cbn [unwrap bind]. rewrite H2. cbn [bind]. exact E.
    + intro p. rewrite (T p). destruct (in_dec Nat.eq_dec p (map snd l)) as [I|I]; destruct (in_dec Nat.eq_dec p (q :: map snd l)) as [J|J]; try reflexivity.
      * exfalso. apply J. right. exact I.
      * destruct J as [->|J]; [|contradiction]. rewrite nth_s_put, H1. reflexivity.
      * unfold s_put. apply nth_upd_other. intros ->. apply J. left. reflexivity.
Qed.
Lemma fill_ok l g out : forall h (s0 s1 : handle -> S) (ys : handle -> list f32), NoDup (map snd l) ->
  (forall p, In p (map snd l) -> nth_error h p = Some (mkS S 1 (s0 p)) /\ run_res s_process (s0 p) (repeat f0 (length out)) = Ok (ys p, s1 p)) ->
  exists o h', fill h l g out = Ok (o, h') /\ length o = length out /\ stepped h h' (map snd l) s1 /\
    forall i d, (i < length out)%nat -> nth i o d = sf_mul_s (mixed (map snd l) (fun p => nth i (ys p) f0) (nth i out d)) g.
Proof.
  induction out as [|x out IH]; intros h s0 s1 ys N H.
  - exists [], h. split; [reflexivity|]. split; [reflexivity|]. split; [|intros i d Hi; cbn in Hi; lia].
    intro p. destruct (in_dec Nat.eq_dec p (map snd l)) as [I|I]; [|reflexivity]. destruct (H p I) as [A B]. cbn in B. injection B as _ <-. exact A.
  - cbn [length repeat] in H.
    set (y := fun p => match s_process (s0 p) f0 with Ok (v, _) => v | Panic => f0 end).
    set (sm := fun p => match s_process (s0 p) f0 with Ok (_, s) => s | Panic => s0 p end).
    set (yt := fun p => tl (ys p)).
    assert (K : forall p, In p (map snd l) -> s_process (s0 p) f0 = Ok (y p, sm p) /\ run_res s_process (sm p) (repeat f0 (length out)) = Ok (yt p, s1 p) /\ ys p = y p :: yt p).
    { intros p I. destruct (H p I) as [_ B]. cbn [run_res] in B. unfold y, sm, yt. destruct (s_process (s0 p) f0) as [[v s]|]; [|discriminate].
      cbn [bind] in B. destruct (run_res s_process s (repeat f0 (length out))) as [[vs s']|]; [|discriminate]. cbn [bind] in B. injection B as <- <-. auto. }
    destruct (mix_ok l h x s0 sm y N) as (h1 & E1 & T1); [intros p I; split; [apply H, I|apply K, I]|].
    destruct (IH h1 sm s1 yt N) as (o & h2 & E2 & L2 & T2 & V2).
    { intros p I. split; [|apply K, I]. rewrite (T1 p). destruct (in_dec Nat.eq_dec p (map snd l)); [reflexivity|contradiction]. }
    exists (sf_mul_s (mixed (map snd l) y x) g :: o), h2. split; [cbn [Channel.fill]; rewrite E1; cbn [bind]; rewrite E2; reflexivity|].
    split; [cbn; f_equal; exact L2|]. split.
    + intro p. rewrite (T2 p). destruct (in_dec Nat.eq_dec p (map snd l)) as [I|I]; [reflexivity|]. rewrite (T1 p). destruct (in_dec Nat.eq_dec p (map snd l)); [contradiction|reflexivity].
    + assert (MX : forall (ps : list handle) (f f' : handle -> f32) z, (forall p, In p ps -> f p = f' p) -> mixed ps f z = mixed ps f' z).
      { unfold mixed. induction ps as [|q ps IHp]; intros f f' z Hf; [reflexivity|]. cbn. rewrite (Hf q) by (left; reflexivity). apply IHp. intros p I. apply Hf. right. exact I. }
      intros [|i] d Hi; cbn [nth].
      * f_equal. apply MX. intros p I. rewrite (proj2 (proj2 (K p I))). reflexivity.
      * rewrite V2 by (cbn in Hi; lia). f_equal. apply MX. intros p I. rewrite (proj2 (proj2 (K p I))). reflexivity.
Qed.
Lemma resize_same v : resize_with SF sf_default (length v) v = v.
Proof. unfold resize_with. rewrite firstn_all, Nat.sub_diag. apply app_nil_r. Qed.
Lemma process_mix (c : channel) (h : sheap) (s0 s1 : handle -> S) (ys : handle -> list f32) : NoDup (map snd (ch_sounds SF c)) ->
  (forall p, In p (map snd (ch_sounds SF c)) -> nth_error h p = Some (mkS S 1 (s0 p)) /\
     run_res s_process (s0 p) (repeat f0 (length (ch_output SF c))) = Ok (ys p, s1 p)) ->
  exists o h', process c h = Ok (mkChannel SF o (ch_sounds SF c) (ch_gain SF c) (ch_counter SF c), h') /\ length o = length (ch_output SF c) /\
    (forall i d, (i < length (ch_output SF c))%nat ->
       nth i o d = sf_mul_s (fold_left (fun x p => sf_add x (sf_from_sample (nth i (ys p) f0))) (map snd (ch_sounds SF c)) (nth i (ch_output SF c) d)) (ch_gain SF c)) /\
    (forall p, nth_error h' p = if in_dec Nat.eq_dec p (map snd (ch_sounds SF c)) then Some (mkS S 1 (s1 p)) else nth_error h p).
Proof.
  intros N H. destruct (fill_ok _ (ch_gain SF c) _ h s0 s1 ys N H) as (o & h' & E & L & T & V). exists o, h'.
  unfold ch_process. rewrite resize_same, E. cbn [bind]. auto.
Qed.
(** a shared sound makes process panic *)
Lemma mix_shared l : forall h x p, In p (map snd l) -> scount S h p <> 1%Z -> mix h l x = Panic.
Proof.
  induction l as [|[id q] l IH]; intros h x p I C; [destruct I|]. cbn [Channel.mix].
  destruct (s_get_mut S h q) as [s|] eqn:G; [|reflexivity]. cbn [unwrap bind]. destruct (s_process s f0) as [[y s']|]; [|reflexivity]. cbn [bind].
  destruct I as [E|I].
  - cbn in E. subst q. apply s_get_mut_spec in G. exfalso. apply C. unfold scount. rewrite G. reflexivity.
  - apply (IH _ _ p I). rewrite scount_put. exact C.
Qed.
Lemma process_shared (c : channel) (h : sheap) p : ch_output SF c <> [] -> In p (map snd (ch_sounds SF c)) -> scount S h p <> 1%Z -> process c h = Panic.
Proof.
  intros O I C. unfold ch_process. rewrite resize_same. destruct (ch_output SF c) as [|x r]; [congruence|]. cbn [Channel.fill].
  rewrite (mix_shared _ h x p I C). reflexivity.
Qed.
(** ** gain *)
Lemma fill_len l g out : forall h o h', fill h l g out = Ok (o, h') -> length o = length out.
Proof.
  induction out as [|x out IH]; intros h o h' E; cbn in E; [injection E as <- <-; reflexivity|].
  destruct (mix h l x) as [[y h1]|]; [|discriminate]. cbn in E. destruct (fill h1 l g out) as [[r h2]|] eqn:F; [|discriminate]. cbn in E. injection E as <- <-.
  cbn. f_equal. eapply IH, F.
Qed.
Lemma gain_step g0 ops o st y st' : ch_gain SF (fst st) = to32 (asked_gain g0 ops) -> step st o = Ok (y, st') -> ch_gain SF (fst st') = to32 (asked_gain g0 (ops ++ [o])).
Proof.
  intros G E. unfold asked_gain in *. rewrite fold_left_app. cbn [fold_left]. destruct st as [c h]. cbn [fst] in G. destruct o; cbn in E.
  - unfold ch_add_sound, ch_get_id in E. destruct (ch_counter SF c + 1 <? 2 ^ 64)%Z; cbn [bind] in E;
      [|destruct overflow_checks; [discriminate|cbn [bind] in E]];
      (destruct (s_get_mut S h p); [|discriminate]; injection E as _ <-; exact G).
  - injection E as _ <-. exact G.
  - injection E as _ <-. reflexivity.
  - unfold ch_set_process_time, with_capacity in E. destruct (_ <=? max_capacity)%Z; [|discriminate]. injection E as _ <-. exact G.
  - unfold ch_process in E. destruct (Channel.fill _ _ _ _ _ _ _ _ _ _) as [[o' h']|]; [|discriminate]. injection E as _ <-. exact G.
  - injection E as _ <-. exact G.
  - injection E as _ <-. exact G.
Qed.
Lemma gain_history g0 h ops : forall ys st, run_res step (ch_new SF g0, h) ops = Ok (ys, st) -> ch_gain SF (fst st) = to32 (asked_gain g0 ops).
Proof.
  induction ops as [|o ops IH] using rev_ind; intros ys st E.
  - cbn in E. injection E as <- <-. reflexivity.
  - apply run_snoc in E. destruct E as (ys1 & st1 & y & R & S1 & _). eapply gain_step; [|exact S1]. eapply IH, R.
Qed.
(** ** Clone *)
Lemma clone_heap (l : list (Z * handle)) : forall h : sheap, let h' := fold_left (fun h e => s_incr S 1 h (snd e)) l h in
  length h' = length h /\ (forall p, (p < length h)%nat -> scount S h' p = (scount S h p + entries l p)%Z) /\
  forall p, option_map (s_sound S) (nth_error h' p) = option_map (s_sound S) (nth_error h p).
Proof.
  induction l as [|[id q] l IH]; intro h; cbn [fold_left snd].
  - split; [reflexivity|]. split; [|reflexivity]. intros p _. unfold entries. cbn. lia.
  - destruct (IH (s_incr S 1 h q)) as (A & B & C). rewrite incr_len in A, B. split; [exact A|]. split.
    + intros p L. rewrite B by exact L. rewrite scount_incr by exact L. rewrite entries_cons. destruct (Nat.eqb q p); lia.
    + intro p. rewrite C. unfold s_incr. destruct (Nat.eq_dec q p) as [->|N]; [rewrite nth_upd_same; destruct (nth_error h p); reflexivity|rewrite nth_upd_other by exact N; reflexivity].
Qed.
Lemma drop_id h o p : id_at S s_get_id (drop_found S h o) p = id_at S s_get_id h p.
Proof.
  destruct o as [q|]; [|reflexivity]. cbn. unfold id_at, s_incr. destruct (Nat.eq_dec q p) as [->|N];
    [rewrite nth_upd_same; destruct (nth_error h p); reflexivity|rewrite nth_upd_other by exact N; reflexivity].
Qed.
Lemma add_keeps_other (c : channel) (h : sheap) p q c' h' : p <> q -> ch_add_sound SF overflow_checks S s_register c h q = Ok (c', h') ->
  id_at S s_get_id h' p = id_at S s_get_id h p.
Proof.
  intros N E. unfold ch_add_sound in E. destruct (ch_get_id SF overflow_checks c) as [[id c1]|]; [|discriminate]. cbn [bind] in E.
  destruct (s_get_mut S h q) as [s|]; [|discriminate]. cbn [unwrap bind] in E. injection E as _ <-. rewrite drop_id.
  unfold id_at, s_incr, s_put. rewrite !nth_upd_other by congruence. reflexivity.
Qed.
End Mix.
