(** The ADSR envelope. *)
From Coq Require Import ZArith List Bool Lia Reals Lra.
From Flocq Require Import Core.Core IEEE754.BinarySingleNaN.
From Verif Require Import Model.Floats Model.Utils Model.Modifiers Spec.Libm
  Proof.FloatFacts Proof.SampleFormatP Proof.FormatsP Proof.UtilsP Proof.WavP Proof.GenericP.
Import ListNotations.
Local Open Scope R_scope.

(** usable parameters: a positive attack step, non-positive decay and release steps (infinite steps
    allowed: zero-length phases), sustain level in [0,1]; no NaN *)
Definition adsr_ok (e : adsr) : Prop :=
  flt f0 (ad_a e) = true /\ fle (ad_d e) f0 = true /\ fle f0 (ad_s e) = true /\ fle (ad_s e) (of_Z 1) = true /\
  fle (ad_r e) f0 = true.

Inductive ev := Proc (x : f32) | Rel.
Definition adsr_ev (e : adsr) (v : ev) : adsr :=
  match v with Proc x => snd (adsr_process e x) | Rel => adsr_release e end.
Definition adsr_after (e : adsr) (l : list ev) : adsr := fold_left adsr_ev l e.

Definition adsr_inv (e : adsr) : Prop :=
  fin (ad_g e) /\ 0 <= B2R (ad_g e) <= 1 /\
  (ad_state e = Decay -> B2R (ad_s e) <= B2R (ad_g e)) /\
  (ad_state e = Sustain -> ad_g e = ad_s e) /\
  (ad_state e = Stopped -> ad_g e = f0).

Lemma fle_nan_l (x y : f32) : fle x y = true -> is_nan x = false /\ is_nan y = false.
Proof. destruct x, y; try discriminate; split; reflexivity. Qed.
Lemma flt_nan_l (x y : f32) : flt x y = true -> is_nan x = false /\ is_nan y = false.
Proof. destruct x, y; try discriminate; split; reflexivity. Qed.

Lemma ext_f0 : ext (f0 : f32) = 0. Proof. reflexivity. Qed.

Lemma fle_fin_between (x : f32) : fle f0 x = true -> fle x (of_Z 1) = true -> fin x /\ 0 <= B2R x <= 1.
Proof.
  intros H1 H2. destruct one32 as [F1 V1]. destruct (fle_nan_l _ _ H1) as [_ N].
  apply (fle_ext f0 x eq_refl N) in H1. apply (fle_ext x (of_Z 1) N (not_nan_fin _ F1)) in H2.
  rewrite ext_f0 in H1. rewrite (ext_fin _ F1), V1 in H2.
  destruct x as [s|[]| |s m e Hb]; try discriminate; try (split; [reflexivity|exact (conj H1 H2)]).
  - cbn [ext] in H1. pose proof (bpow_gt_0 radix2 128). lra.
  - cbn [ext] in H2. pose proof (bpow_lt radix2 0 128 eq_refl). simpl (bpow radix2 0) in H. lra.
Qed.

Lemma small_fin (h : f32) M : is_nan h = false -> 0 <= ext h -> ext h < M -> M <= bpow radix2 128 -> fin h /\ B2R h = ext h.
Proof.
  intros N H1 H2 HM. destruct h as [s|[]| |s m e Hb]; try discriminate; try (split; reflexivity).
  - cbn [ext] in H1. pose proof (bpow_gt_0 radix2 128). lra.
  - cbn [ext] in H2. lra.
Qed.

(** adding a positive / non-positive step, possibly infinite *)
Lemma add_up (g a : f32) : fin g -> flt f0 a = true -> is_nan (fadd g a) = false /\ B2R g <= ext (fadd g a) /\
  (fin a -> ext (fadd g a) = sat (emax:=128) (rnd32 (B2R g + B2R a))).
Proof.
  intros Fg Ha. destruct (flt_nan_l _ _ Ha) as [_ Na]. apply (flt_ext f0 a eq_refl Na) in Ha. rewrite ext_f0 in Ha.
  destruct (is_finite a) eqn:Fa.
  - destruct (fadd_ext_fin g a Fg Fa) as [N E]. split; [exact N|]. rewrite E. split; [|auto].
    rewrite (ext_fin _ Fa) in Ha. apply Rle_trans with (sat (emax:=128) (B2R g)); [rewrite sat_id by (left; apply abs_B2R_lt); lra|].
    apply sat_le. apply rnd_ge_fmt; [apply fmt_B2R|lra].
  - destruct a as [s|[]| |s m e Hb]; try discriminate.
    + cbn [ext] in Ha. pose proof (bpow_gt_0 radix2 128). lra.
    + assert (E : fadd g (B754_infinity false) = B754_infinity false) by (destruct g as [[]|[]| |[] ? ? ?]; try discriminate; reflexivity).
      rewrite E. split; [reflexivity|]. split; [|discriminate]. cbn [ext].
      pose proof (abs_B2R_lt g) as L. apply Rabs_lt_inv in L. lra.
Qed.
Lemma add_down (g d : f32) : fin g -> fle d f0 = true -> is_nan (fadd g d) = false /\ ext (fadd g d) <= B2R g /\
  (fin d -> ext (fadd g d) = sat (emax:=128) (rnd32 (B2R g + B2R d))).
Proof.
  intros Fg Hd. destruct (fle_nan_l _ _ Hd) as [Nd _]. apply (fle_ext d f0 Nd eq_refl) in Hd. rewrite ext_f0 in Hd.
  destruct (is_finite d) eqn:Fd.
  - destruct (fadd_ext_fin g d Fg Fd) as [N E]. split; [exact N|]. rewrite E. split; [|auto].
    rewrite (ext_fin _ Fd) in Hd. apply Rle_trans with (sat (emax:=128) (B2R g)); [|rewrite sat_id by (left; apply abs_B2R_lt); lra].
    apply sat_le. apply rnd_le_fmt; [apply fmt_B2R|lra].
  - destruct d as [s|[]| |s m e Hb]; try discriminate.
    + assert (E : fadd g (B754_infinity true) = B754_infinity true) by (destruct g as [[]|[]| |[] ? ? ?]; try discriminate; reflexivity).
      rewrite E. split; [reflexivity|]. split; [|discriminate]. cbn [ext].
      pose proof (abs_B2R_lt g) as L. apply Rabs_lt_inv in L. lra.
    + cbn [ext] in Hd. pose proof (bpow_gt_0 radix2 128). lra.
Qed.

Lemma b128_1 : 1 <= bpow radix2 128.
Proof. change 1 with (bpow radix2 0). apply bpow_le. lia. Qed.

Definition next_ok (e e' : adsr) : Prop :=
  match ad_state e with
  | Attack => B2R (ad_g e) <= B2R (ad_g e') /\
              (ad_state e' = Attack \/ ad_state e' = Decay /\ ad_g e' = of_Z 1)
  | Decay => B2R (ad_g e') <= B2R (ad_g e) /\
              (ad_state e' = Decay \/ ad_state e' = Sustain /\ ad_g e' = ad_s e)
  | Sustain => ad_state e' = Sustain /\ ad_g e' = ad_g e
  | Release => B2R (ad_g e') <= B2R (ad_g e) /\
              (ad_state e' = Release \/ ad_state e' = Stopped /\ ad_g e' = f0)
  | Stopped => ad_state e' = Stopped /\ ad_g e' = f0
  end.
Definition same_params (e e' : adsr) : Prop :=
  ad_a e' = ad_a e /\ ad_d e' = ad_d e /\ ad_s e' = ad_s e /\ ad_r e' = ad_r e.

Ltac acbn := unfold adsr_inv, adsr_set; cbn [ad_state ad_g ad_a ad_d ad_s ad_r].
Lemma adsr_step (e : adsr) (x : f32) : adsr_ok e -> adsr_inv e ->
  let '(y, e') := adsr_process e x in
  same_params e e' /\ adsr_inv e' /\ next_ok e e' /\
  y = match ad_state e with Stopped => f0 | _ => fmul x (ad_g e') end.
Proof.
  intros (Ka & Kd & Ks0 & Ks1 & Kr) (Fg & Hg & ID & IS & IP). destruct one32 as [F1 V1].
  destruct (fle_fin_between _ Ks0 Ks1) as [Fs Hs].
  unfold adsr_process, next_ok, same_params. destruct (ad_state e) eqn:ST.
  - destruct (add_up _ _ Fg Ka) as (N & L & _). cbv zeta.
    destruct (fge (fadd (ad_g e) (ad_a e)) (of_Z 1)) eqn:C.
    + acbn. rewrite V1. repeat split; try lra; try discriminate; try exact F1; auto.
      all: rewrite ?V1; lra.
    + assert (L1 : ext (fadd (ad_g e) (ad_a e)) < 1).
      { apply Rnot_le_lt. intro K. rewrite <- V1, <- (ext_fin _ F1) in K.
        apply (fle_ext (of_Z 1) _ (not_nan_fin _ F1) N) in K. unfold fge in C. unfold fle in K. congruence. }
      destruct (small_fin _ 1 N ltac:(lra) L1 b128_1) as [FH EH].
      acbn. rewrite EH. repeat split; try lra; try discriminate; auto.
  - destruct (add_down _ _ Fg Kd) as (N & L & _). cbv zeta.
    destruct (fle (fadd (ad_g e) (ad_d e)) (ad_s e)) eqn:C.
    + acbn. specialize (ID eq_refl). repeat split; try lra; try discriminate; auto.
    + assert (L1 : B2R (ad_s e) < ext (fadd (ad_g e) (ad_d e))).
      { apply Rnot_le_lt. intro K. rewrite <- (ext_fin _ Fs) in K.
        apply (fle_ext _ _ N (not_nan_fin _ Fs)) in K. congruence. }
      destruct (small_fin _ 2 N ltac:(lra) ltac:(lra)) as [FH EH].
      { change 2 with (bpow radix2 1). apply bpow_le. lia. }
      acbn. rewrite EH. repeat split; try lra; try discriminate; auto.
  - acbn. rewrite ST. repeat split; try lra; auto; discriminate.
  - destruct (add_down _ _ Fg Kr) as (N & L & _). cbv zeta.
    destruct (fle (fadd (ad_g e) (ad_r e)) f0) eqn:C.
    + acbn. change (B2R (f0 : f32)) with 0. repeat split; try lra; try discriminate; auto.
    + assert (L1 : 0 < ext (fadd (ad_g e) (ad_r e))).
      { apply Rnot_le_lt. intro K. change (ext (fadd (ad_g e) (ad_r e)) <= ext (f0 : f32)) in K.
        apply (fle_ext _ f0 N eq_refl) in K. congruence. }
      destruct (small_fin _ 2 N ltac:(lra) ltac:(lra)) as [FH EH].
      { change 2 with (bpow radix2 1). apply bpow_le. lia. }
      acbn. rewrite EH. repeat split; try lra; try discriminate; auto.
  - specialize (IP eq_refl). repeat split; try lra; auto; try discriminate; rewrite ?ST; try discriminate.
Qed.

Lemma adsr_params_ok e e' : same_params e e' -> adsr_ok e -> adsr_ok e'.
Proof. intros (A & D & S' & R') H. unfold adsr_ok. rewrite A, D, S', R'. exact H. Qed.

Lemma adsr_history (e : adsr) : adsr_ok e -> adsr_inv e -> forall l : list ev,
  same_params e (adsr_after e l) /\ adsr_inv (adsr_after e l).
Proof.
  intros K I l. revert e K I. induction l as [|v l IH]; intros e K I.
  - split; [repeat split|exact I].
  - unfold adsr_after. cbn [fold_left]. fold (adsr_after (adsr_ev e v) l).
    assert (S1 : same_params e (adsr_ev e v) /\ adsr_inv (adsr_ev e v)).
    { destruct v as [x|].
      - cbn [adsr_ev]. pose proof (adsr_step e x K I) as H. destruct (adsr_process e x) as [y e'].
        destruct H as (H1 & H2 & _). split; assumption.
      - cbn. split; [repeat split|]. destruct I as (F & G & _). unfold adsr_inv. cbn.
        repeat split; try (exact F); try lra; discriminate. }
    destruct S1 as [P1 I1]. destruct (IH _ (adsr_params_ok _ _ P1 K) I1) as [P2 I2].
    split; [|exact I2]. destruct P1 as (A & B & C & D), P2 as (A' & B' & C' & D').
    unfold same_params. rewrite A', B', C', D'. auto.
Qed.

Lemma adsr_start_inv e : ad_g e = f0 -> ad_state e = Attack -> adsr_inv e.
Proof.
  intros G S1. unfold adsr_inv. rewrite G, S1. change (B2R (f0 : f32)) with 0.
  repeat split; try lra; discriminate.
Qed.

(** phases: without release never beyond Sustain; after release only Release or Stopped *)
Definition before_rel (s : adsr_state) : Prop := s = Attack \/ s = Decay \/ s = Sustain.
Definition after_rel (s : adsr_state) : Prop := s = Release \/ s = Stopped.

Lemma proc_state e x :
  (before_rel (ad_state e) -> before_rel (ad_state (snd (adsr_process e x)))) /\
  (after_rel (ad_state e) -> after_rel (ad_state (snd (adsr_process e x)))).
Proof.
  unfold before_rel, after_rel, adsr_process. destruct (ad_state e) eqn:E; split; intro H; cbv zeta;
    try (destruct H as [H|[H|H]]; discriminate H); try (destruct H as [H|H]; discriminate H);
    cbn; rewrite ?E; try match goal with |- context [if ?c then _ else _] => destruct c end; cbn; auto.
Qed.

Lemma adsr_before e l : before_rel (ad_state e) -> ~ In Rel l -> before_rel (ad_state (adsr_after e l)).
Proof.
  revert e. induction l as [|v l IH]; intros e H N; [exact H|].
  unfold adsr_after. cbn [fold_left]. apply IH; [|intro K; apply N; right; exact K].
  destruct v as [x|]; [apply (proc_state e x), H|elim N; left; reflexivity].
Qed.
Lemma adsr_after_rel e l : after_rel (ad_state e) -> after_rel (ad_state (adsr_after e l)).
Proof.
  revert e. induction l as [|v l IH]; intros e H; [exact H|].
  unfold adsr_after. cbn [fold_left]. apply IH.
  destruct v as [x|]; [apply (proc_state e x), H|left; reflexivity].
Qed.
Lemma adsr_phase e l : ad_state e = Attack ->
  (~ In Rel l -> before_rel (ad_state (adsr_after e l))) /\
  (In Rel l -> after_rel (ad_state (adsr_after e l))).
Proof.
  intro H. split.
  - intro N. apply adsr_before; [left; exact H|exact N].
  - intro N. apply in_split in N. destruct N as (l1 & l2 & ->).
    unfold adsr_after. rewrite fold_left_app. cbn [fold_left]. apply adsr_after_rel. left. reflexivity.
Qed.

(** once stopped *)
Lemma adsr_stopped e xs : ad_state e = Stopped -> run adsr_process e xs = (repeat f0 (length xs), e).
Proof.
  intro H. induction xs as [|x xs IH]; [reflexivity|]. cbn [run]. unfold adsr_process at 1. rewrite H, IH. reflexivity.
Qed.
Lemma adsr_stopped_release e x : adsr_ok e -> adsr_inv e -> ad_state e = Stopped ->
  let '(y, e') := adsr_process (adsr_release e) x in y = fmul x f0 /\ ad_state e' = Stopped.
Proof.
  intros K (Fg & _ & _ & _ & IP) H. specialize (IP H). unfold adsr_process, adsr_release. cbn [ad_state ad_g ad_r].
  rewrite IP. destruct K as (_ & _ & _ & _ & Kr).
  destruct (add_down f0 _ eq_refl Kr) as (N & L & _). apply (fle_ext _ f0 N eq_refl) in L. rewrite L. cbn. auto.
Qed.
