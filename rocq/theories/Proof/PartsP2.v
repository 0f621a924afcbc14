(** * Sounds made of library parts: no panics; notes that cannot be ended; silent voices *)
From Coq Require Import ZArith List Bool Lia Arith Reals Lra.
From Flocq Require Import Core.Core IEEE754.BinarySingleNaN.
From Verif Require Import Model.Floats Model.Utils Model.Generators Model.Modifiers Model.Filters Model.Resampler Model.Sounds Model.Parts
  Spec.Libm Spec.SoundSpec Spec.Parts Proof.FloatFacts Proof.SampleFormatP Proof.WavP Proof.UtilsP Proof.ResamplerP Proof.GenericP Proof.GeneratorsP3 Proof.AdsrP Proof.AdsrP2 Proof.AdsrP3 Proof.AdsrP4 Proof.AdsrShapeP Proof.DbP Spec.Decibel
  Proof.SoundsP Proof.SoundsP2 Proof.SoundsP3 Proof.HeapP Proof.PartsP.
Import ListNotations.

(** ** no panics *)
Definition g_ok (g : gpart) : Prop :=
  match g with
  | GSin s => sin_inv s
  | GWav r => r_le r = 0%Z /\ (Z.of_nat (length (r_data r)) <= 2 ^ 24)%Z /\ forall k, (0 <= k <= 22)%Z -> Z.of_nat (length (r_data r)) <> (2 ^ k + 1)%Z
  | _ => True
  end.
Definition m_ok (p : mpart) : Prop :=
  match p with
  | MEcho e => e_delay e <> []
  | MGeneric s => (forall c, In c (gn_zeros s) -> (0 <= fst c < Z.of_nat (length (gn_in s)))%Z) /\
                  (forall c, In c (gn_poles s) -> (0 <= fst c < Z.of_nat (length (gn_out s)))%Z)
  | _ => True
  end.
Definition kit_ok (b : kit) : Prop := g_ok (sb_g b) /\ m_ok (sb_m b) /\ sb_gc b = 1%Z /\ sb_mc b = 1%Z /\ sb_ic b = 1%Z.

Lemma g_step_ok m g : sin_bounded m -> g_ok g -> exists y g', g_step m g = Ok (y, g') /\ g_ok g'.
Proof.
  intros SB H. destruct g as [|dr n|s|s|s|s|r]; cbn [g_step].
  - cbn. eauto.
  - exists (noise_process (dr n)), (GNoise dr (S n)). auto.
  - destruct (saw_process s). eauto.
  - destruct (tri_process s). eauto.
  - destruct (sq_process s). eauto.
  - destruct (sin_step m s SB H) as (y & s' & E & I & _). rewrite E. cbn [bind]. eauto.
  - destruct H as (A & B & C). unfold monowav_process. destruct (resampler_process r) as [[y r']|] eqn:E.
    + cbn [bind]. exists y, (GWav r'). split; [reflexivity|]. destruct (process_preserves r y r' E) as (D & _ & _ & _ & L). cbn. rewrite D, L. auto.
    + exfalso. apply process_nl_panic_iff in E; try assumption. destruct E as (k & K1 & K2 & _). exact (C k K1 K2).
Qed.
Lemma taps_ok cs h : (forall c, In c cs -> (0 <= fst c < Z.of_nat (length h))%Z) -> forall y, exists z, taps cs h y = Ok z.
Proof.
  induction cs as [|c r IH]; intros H y; cbn [taps]; [eauto|]. rewrite index_nth by (apply H; left; reflexivity). cbn [bind].
  apply IH. intros d Hd. apply H. right. exact Hd.
Qed.
Lemma m_step_ok m p x : m_ok p -> exists y p', m_step m p x = Ok (y, p') /\ m_ok p'.
Proof.
  intro H. destruct p as [|a|q|e|s|s|s|e|e|s]; cbn [m_step].
  - cbn. eauto.
  - cbn. eauto.
  - unfold delay_process. destruct (q ++ [x]) as [|y q'] eqn:E; [destruct q; discriminate|]. cbn [bind]. exists y, (MDelay q'). split; [reflexivity|exact I].
  - cbn in H. unfold echo_process. destruct (e_delay e) as [|o q]; [congruence|]. cbn [bind]. eexists. eexists. split; [reflexivity|]. cbn. destruct q; discriminate.
  - destruct (lp_process s x). eauto.
  - destruct (hp_process s x). eauto.
  - destruct (bp_process m s x). eauto.
  - destruct (env_process num32 e x). eauto.
  - destruct (adsr_process e x). eauto.
  - cbn in H. destruct H as [H1 H2]. unfold generic_process.
    destruct (taps_ok (gn_zeros s) (shift_in (gn_in s) x) ltac:(rewrite shift_in_length; exact H1) f0) as [y1 E1]. rewrite E1. cbn [bind].
    destruct (taps_ok (gn_poles s) (gn_out s) H2 y1) as [y E]. rewrite E. cbn [bind]. eexists. eexists. split; [reflexivity|]. unfold m_ok. cbn [gn_zeros gn_poles gn_in gn_out]. rewrite !shift_in_length. auto.
Qed.
Lemma kit_ok_prime b x : kit_ok b -> kit_ok (kit_prime b x).
Proof. destruct b. exact (fun H => H). Qed.
Lemma kit_ok_process m b : sin_bounded m -> kit_ok b -> match kit_process m b with Ok (_, b') => kit_ok b' | Panic => False end.
Proof.
  intros SB (G & M & C1 & C2 & C3). unfold kit_process, sb_process. rewrite C1, C2, C3. change (get_mut_unwrap 1 (sb_i b)) with (Ok (sb_i b)).
  change (get_mut_unwrap 1 (sb_g b)) with (Ok (sb_g b)). change (get_mut_unwrap 1 (sb_m b)) with (Ok (sb_m b)). cbn [bind].
  destruct (g_step_ok m _ SB G) as (ge & g' & -> & G'). cbn [bind]. destruct (m_step_ok m _ (sb_input b) M) as (mo & p' & -> & M'). cbn [bind].
  destruct (i_step_total (sb_i b) ge mo) as [y ->]. cbn [bind]. unfold kit_ok. cbn. auto.
Qed.
Lemma made_ok b : made b -> kit_ok b.
Proof.
  intros (g & p & i & -> & Hg & Hp). unfold kit_ok, kit_new, sb_new. cbn [sb_g sb_m sb_gc sb_mc sb_ic]. split; [|split; [|auto]].
  - destruct g; try exact I; cbn in Hg.
    + destruct Hg as (f & -> & F & H). apply sin_new_inv; assumption.
    + destruct Hg as (rate & t & -> & H). exact (conj eq_refl H).
  - destruct p; try exact I; cbn in Hp.
    + destruct Hp as (d & g0 & -> & H). exact H.
    + destruct Hp as (z & q & -> & Hz & Hq). cbn. unfold zeros. rewrite !repeat_length, !Z2Nat.id;
        [auto|apply back_len_nonneg; intros c Hc; apply Hq in Hc; lia|apply back_len_nonneg; intros c Hc; apply Hz in Hc; lia].
Qed.
Lemma made_hP h : made_heap h -> hP kit kit_ok h.
Proof. intros H n c E. destruct (H n c E) as (b & -> & M). exact (made_ok b M). Qed.
Lemma simple_no_panic m h s ops : sin_bounded m -> made_heap h -> run_res (ss_step kit kit_prime (kit_process m)) (s, h) ops <> Panic.
Proof.
  intros SB H E. pose proof (ss_history_hP kit kit_prime (kit_process m) kit_ok False kit_ok_prime (fun b => kit_ok_process m b SB) ops s h (made_hP h H)) as K.
  rewrite E in K. exact K.
Qed.
Lemma complex_no_panic m h gi go ops : sin_bounded m -> made_heap h -> proper_history kit h ops ->
  run_res (cs_step kit kit_prime (kit_process m)) (cs_new kit h gi go) ops <> Panic.
Proof.
  intros SB H PH E.
  destruct (complex_safe kit kit_prime (kit_process m) kit_ok False kit_ok_prime (fun b => kit_ok_process m b SB) (fun f => f) h gi go ops (made_hP h H) PH) as (ys & st & E' & _).
  rewrite E' in E. discriminate.
Qed.

(** ** notes cannot be released *)
Lemma held_step e x : ad_state e = Attack \/ ad_state e = Decay \/ ad_state e = Sustain ->
  let e' := snd (adsr_process e x) in ad_state e' = Attack \/ ad_state e' = Decay \/ ad_state e' = Sustain.
Proof.
  intro H. unfold adsr_process. destruct (ad_state e) eqn:E; cbn [snd].
  - destruct (fge _ _); cbn; auto.
  - destruct (fle _ _); cbn; auto.
  - rewrite E. auto.
  - destruct H as [H|[H|H]]; discriminate.
  - destruct H as [H|[H|H]]; discriminate.
Qed.
Definition kit_held (b : kit) : Prop := held_note (sb_m b).
Lemma held_process m b : kit_held b -> match kit_process m b with Ok (_, b') => kit_held b' | Panic => True end.
Proof.
  intro H. unfold kit_process, sb_process. destruct (get_mut_unwrap (sb_ic b) (sb_i b)) as [i|]; [|exact I]. cbn [bind].
  destruct (get_mut_unwrap (sb_gc b) (sb_g b)) as [g|]; [|exact I]. cbn [bind]. destruct (g_step m g) as [[ge g']|]; [|exact I]. cbn [bind].
  unfold get_mut_unwrap. destruct (sb_mc b =? 1)%Z; [|exact I]. cbn [bind].
  destruct (m_step m (sb_m b) (sb_input b)) as [[mo p']|] eqn:E; [|exact I]. cbn [bind].
  destruct (i_step_total i ge mo) as [y ->]. cbn [bind]. unfold kit_held in *. cbn [sb_m].
  destruct (sb_m b) as [|a|q|e|s|s|s|e|e|s]; cbn [m_step] in E.
  - injection E as _ <-. exact I.
  - injection E as _ <-. exact I.
  - destruct (delay_process q (sb_input b)) as [[? ?]|]; [|discriminate]. injection E as _ <-. exact I.
  - destruct (echo_process e (sb_input b)) as [[? ?]|]; [|discriminate]. injection E as _ <-. exact I.
  - destruct (lp_process s (sb_input b)). injection E as _ <-. exact I.
  - destruct (hp_process s (sb_input b)). injection E as _ <-. exact I.
  - destruct (bp_process m s (sb_input b)). injection E as _ <-. exact I.
  - destruct (env_process num32 e (sb_input b)). injection E as _ <-. exact I.
  - pose proof (held_step e (sb_input b) H) as K. destruct (adsr_process e (sb_input b)) as [? e']. injection E as _ <-. exact K.
  - destruct (generic_process s (sb_input b)) as [[? ?]|]; [|discriminate]. injection E as _ <-. exact I.
Qed.
Lemma simple_held m ops s h ys s' h' : held_heap h -> run_res (ss_step kit kit_prime (kit_process m)) (s, h) ops = Ok (ys, (s', h')) -> held_heap h'.
Proof.
  intros H E. pose proof (ss_history_hP kit kit_prime (kit_process m) kit_held True (fun b x K => K) (held_process m) ops s h) as K.
  rewrite E in K. apply K. exact H.
Qed.
Lemma complex_held m ops s h ys s' h' : held_heap h -> run_res (cs_step kit kit_prime (kit_process m)) (s, h) ops = Ok (ys, (s', h')) -> held_heap h'.
Proof.
  intros H E. exact (cs_history_hP kit kit_prime (kit_process m) kit_held True (fun b x K => K) (held_process m) ops s h ys s' h' H E).
Qed.

(** the gain of a note that is never released never comes back down to zero *)
Local Open Scope R_scope.
Lemma held_gain e0 c xs : adsr_ok e0 -> adsr_inv e0 -> ad_state e0 = Attack -> c <= 1 -> c <= B2R (ad_s e0) -> c <= B2R (ad_g (after_n e0 (firstn 1 xs))) -> xs <> [] ->
  c <= B2R (ad_g (after_n e0 xs)) /\ (ad_state (after_n e0 xs) = Attack \/ ad_state (after_n e0 xs) = Decay \/ ad_state (after_n e0 xs) = Sustain).
Proof.
  intros K I S0 C1 CS CA NE. destruct xs as [|x xs]; [congruence|]. cbn [firstn] in CA. clear NE.
  induction xs as [|z xs IH] using rev_ind.
  - split; [exact CA|]. unfold after_n. cbn [run]. pose proof (held_step e0 x (or_introl S0)) as H. destruct (adsr_process e0 x) as [y e']. exact H.
  - destruct IH as [G H]. change (x :: xs ++ [z]) with ((x :: xs) ++ [z]). rewrite after_n_app.
    destruct (after_n_inv e0 (x :: xs) K I) as (K1 & I1 & P1). set (e := after_n e0 (x :: xs)) in *.
    split; [|apply (held_step e z), H].
    pose proof (adsr_step e z K1 I1) as ST. destruct (adsr_process e z) as [y e'] eqn:EP. destruct ST as (P2 & I2 & N2 & _).
    cbn [snd]. unfold next_ok in N2. assert (ES : ad_s e = ad_s e0) by apply P1. destruct H as [H|[H|H]]; rewrite H in N2.
    + lra.
    + destruct N2 as [_ [N2|[N2 N3]]]; [|rewrite N3, ES; exact CS]. destruct I2 as (_ & _ & ID & _). specialize (ID N2).
      destruct P2 as (_ & _ & P2 & _). rewrite P2, ES in ID. lra.
    + destruct N2 as [_ N3]. rewrite N3. exact G.
Qed.

Lemma adsr_alone m xss : forall e, exists ys, run_res (mod_alone (m_step m)) (MAdsr e) xss = Ok (ys, MAdsr (after_n e (map sum_in xss))) /\ ys = fst (run adsr_process e (map sum_in xss)).
Proof.
  induction xss as [|xs r IH]; intro e; [exists []; split; reflexivity|]. cbn [run_res map]. rewrite after_n_S. cbn [run]. unfold mod_alone at 1. cbn [m_step].
  destruct (adsr_process e (sum_in xs)) as [y e'] eqn:E. cbn [bind]. destruct (IH e') as (ys & E1 & E2). rewrite E1. cbn [bind snd].
  exists (y :: ys). split; [reflexivity|]. destruct (run adsr_process e' (map sum_in r)). cbn [fst] in *. rewrite E2. reflexivity.
Qed.
Lemma last_output e xs : adsr_ok e -> adsr_inv e -> ad_state e = Attack -> xs <> [] ->
  last (fst (run adsr_process e xs)) f0 = fmul (last xs f0) (ad_g (after_n e xs)).
Proof.
  intros K I S0 NE. destruct (exists_last NE) as (pre & x & ->). rewrite after_n_app, last_last. unfold after_n.
  assert (E : fst (run adsr_process e (pre ++ [x])) = fst (run adsr_process e pre) ++ [fst (adsr_process (snd (run adsr_process e pre)) x)]).
  { rewrite run_app. cbn [run]. destruct (adsr_process (snd (run adsr_process e pre)) x). reflexivity. }
  rewrite E, last_last. destruct (after_n_inv e pre K I) as (K1 & I1 & _). fold (after_n e pre) in *. set (e1 := after_n e pre) in *.
  assert (HS : ad_state e1 = Attack \/ ad_state e1 = Decay \/ ad_state e1 = Sustain).
  { subst e1. clear -S0. induction pre as [|z l IH] using rev_ind; [left; exact S0|]. rewrite after_n_app. apply held_step, IH. }
  pose proof (adsr_step e1 x K1 I1) as ST. destruct (adsr_process e1 x) as [y e2]. destruct ST as (_ & _ & _ & ->). cbn [fst snd].
  destruct HS as [HS|[HS|HS]]; rewrite HS; reflexivity.
Qed.
Lemma first_gain m a d s r x y : ad_g (after_n (adsr_new m a d s r) [x]) = ad_g (after_n (adsr_new m a d s r) [y]).
Proof.
  unfold after_n. cbn [run]. unfold adsr_process. cbn [adsr_new ad_state]. destruct (fge _ _); reflexivity.
Qed.
Lemma note_never_ends m a d s r : pow10_unit m -> s <> B754_infinity true -> pos_dur a -> pos_dur d -> pos_dur r ->
  let e0 := adsr_new m a d s r in 0 < B2R (ad_s e0) ->
  exists c, 0 < c /\ forall xss, xss <> [] -> exists ys e, run_res (mod_alone (m_step m)) (MAdsr e0) xss = Ok (ys, MAdsr e) /\
    c <= B2R (ad_g e) /\ last ys f0 = fmul (sum_in (last xss [])) (ad_g e).
Proof.
  intros HU HS [Da Pa] [Dd Pd] [Dr Pr] e0 HP. destruct (adsr_new_ok m a d r s HU HS Da Dd Dr Pa Pd Pr) as [K I]. fold e0 in K, I.
  set (g1 := B2R (ad_g (after_n e0 [f0]))).
  assert (G1 : 0 < g1 <= 1).
  { subst g1. destruct (after_n_inv e0 [f0] K I) as (_ & (_ & H1 & _) & _). split; [|apply H1].
    unfold after_n. cbn [run]. unfold adsr_process. assert (S0 : ad_state e0 = Attack) by reflexivity. assert (G0 : ad_g e0 = f0) by reflexivity. rewrite S0, G0. destruct K as (Ka & _).
    destruct (flt_nan_l _ _ Ka) as [_ Na]. pose proof Ka as Ka'. apply (flt_ext f0 (ad_a e0) eq_refl Na) in Ka'. rewrite ext_f0 in Ka'.
    assert (EA : fadd f0 (ad_a e0) = ad_a e0) by (destruct (ad_a e0) as [[]|[]| |[] ? ? ?]; try discriminate; reflexivity).
    rewrite EA. destruct (fge (ad_a e0) (of_Z 1)) eqn:EG; cbn [snd adsr_set ad_g].
    - destruct one32 as [_ V1]. rewrite V1. lra.
    - destruct (ad_a e0) as [sg|[]| |sg mm ee Hb]; try discriminate. exact Ka'. }
  exists (Rmin g1 (B2R (ad_s e0))). split; [apply Rmin_glb_lt; [apply G1|exact HP]|]. intros xss NE.
  destruct (adsr_alone m xss e0) as (ys & E & EY). exists ys, (after_n e0 (map sum_in xss)). split; [exact E|].
  assert (NE' : map sum_in xss <> []) by (destruct xss; [congruence|discriminate]). split.
  - apply held_gain; try assumption; try reflexivity.
    + apply Rle_trans with g1; [apply Rmin_l|apply G1].
    + apply Rmin_r.
    + destruct (map sum_in xss) as [|x l]; [congruence|]. cbn [firstn]. unfold e0. rewrite (first_gain m a d s r x f0). apply Rmin_l.
  - rewrite EY, last_output by (try assumption; reflexivity). f_equal.
    destruct (exists_last NE) as (pre & x & ->). rewrite map_app. cbn [map]. rewrite !last_last. reflexivity.
Qed.

(** ** a sound of one block: the block, primed once per call *)
Lemma single_block {U} (up : U -> f32 -> U) (uo : U -> res (f32 * U)) gi go xs : forall u,
  outputs (run_res (scaled_series (b_prime U up) (b_process U uo) gi go) [User U u] xs) =
  (do ys <- outputs (run_res (cycle up uo) u (map (fun x => [fmul x gi]) xs)); Ok (map (fun y => fmul y go) ys)).
Proof.
  induction xs as [|x r IH]; intro u; [reflexivity|]. cbn [map]. rewrite !outputs_cons. unfold scaled_series at 1. cbn [series b_prime b_process].
  unfold cycle at 1. cbn [fold_left]. destruct (uo (up u (fmul x gi))) as [[y u']|]; [|reflexivity]. cbn [bind]. rewrite IH.
  destruct (outputs (run_res (cycle up uo) u' (map (fun x => [fmul x gi]) r))); reflexivity.
Qed.
Lemma single_sound {U} (up : U -> f32 -> U) (uo : U -> res (f32 * U)) gi go p u h xs : get_mut U h p = Some (User U u) ->
  outputs (run_res (ss_process U up uo (ss_new gi go p)) h xs) =
  (do ys <- outputs (run_res (cycle up uo) u (map (fun x => [fmul x (to32 gi)]) xs)); Ok (map (fun y => fmul y (to32 go)) ys)).
Proof.
  intro H. rewrite <- single_block. apply (built_series U up uo gi go p [] h (User U u) [] xs).
  - constructor; [intros []|constructor].
  - unfold held, added. cbn [map concat app]. rewrite H. reflexivity.
Qed.

Lemma silent_mul x y : silent x -> fin y -> silent (fmul x y).
Proof.
  intros [F Z0] FY. destruct x as [[]|[]| |[] ? ? ?]; try discriminate; destruct y as [[]|[]| |[] ? ? ?]; try discriminate; try (split; reflexivity);
    exfalso; cbn in Z0; apply eq_0_F2R in Z0; discriminate.
Qed.
Lemma silent_mul_r x y : silent y -> fin x -> silent (fmul x y).
Proof.
  intros [F Z0] FY. destruct y as [[]|[]| |[] ? ? ?]; try discriminate; destruct x as [[]|[]| |[] ? ? ?]; try discriminate; try (split; reflexivity);
    exfalso; cbn in Z0; apply eq_0_F2R in Z0; discriminate.
Qed.
Lemma silent_add x y : silent x -> silent y -> silent (fadd x y).
Proof.
  intros [F Z0] [FY Z1]. destruct x as [[]|[]| |[] ? ? ?]; try discriminate; try (exfalso; cbn in Z0; apply eq_0_F2R in Z0; discriminate);
  destruct y as [[]|[]| |[] ? ? ?]; try discriminate; try (exfalso; cbn in Z1; apply eq_0_F2R in Z1; discriminate); split; reflexivity.
Qed.
Lemma silent_sum xs : Forall silent xs -> silent (sum_in xs).
Proof.
  unfold sum_in. assert (S0 : silent f0) by (split; reflexivity). revert S0. generalize (f0 : f32). induction xs as [|x r IH]; intros z S0 H; [exact S0|].
  cbn [fold_left]. inversion H; subst. apply IH; [apply silent_add; assumption|assumption].
Qed.
Lemma adsr_silent e : adsr_ok e -> adsr_inv e -> forall xs, Forall silent xs -> Forall silent (fst (run adsr_process e xs)).
Proof.
  intros K I xs. revert e K I. induction xs as [|x r IH]; intros e K I H; [constructor|]. inversion H; subst. cbn [run].
  pose proof (adsr_step e x K I) as ST. destruct (adsr_process e x) as [y e']. destruct ST as (P & I' & _ & ->).
  specialize (IH e' (adsr_params_ok e e' P K) I' H3). destruct (run adsr_process e' r) as [ys e2]. cbn [fst] in *. constructor; [|exact IH].
  destruct I' as (F & _). destruct (ad_state e); try (apply silent_mul; assumption). split; reflexivity.
Qed.
(** generator times envelope, never primed with anything but zeros: silence, whatever the generator plays *)
Lemma voice_silent m a d s r g xss gs g' : pow10_unit m -> s <> B754_infinity true -> pos_dur a -> pos_dur d -> pos_dur r ->
  run_res (gen_alone (g_step m)) g xss = Ok (gs, g') -> Forall (fun y => fin y) gs -> Forall (Forall silent) xss ->
  exists ys, outputs (run_res (cycle kit_prime (kit_process m)) (kit_new g (MAdsr (adsr_new m a d s r)) IDefault) xss) = Ok ys /\ length ys = length xss /\ Forall silent ys.
Proof.
  intros HU HS [Da Pa] [Dd Pd] [Dr Pr] EG FG HX. destruct (adsr_new_ok m a d r s HU HS Da Dd Dr Pa Pd Pr) as [K I]. rewrite kit_product, EG.
  destruct (adsr_alone m xss (adsr_new m a d s r)) as (ys & -> & EY). cbn [outputs bind both].
  assert (S1 : Forall silent ys).
  { rewrite EY. apply adsr_silent; [exact K|exact I|]. clear -HX. induction HX; cbn; constructor; [apply silent_sum; assumption|assumption]. }
  assert (LY : length ys = length xss) by (rewrite EY, run_length, map_length; reflexivity).
  assert (LG : length gs = length xss).
  { clear -EG. revert g gs g' EG. induction xss as [|x r IH]; intros g gs g' E; cbn [run_res] in E; [injection E as <- _; reflexivity|].
    destruct (gen_alone (g_step m) g x) as [[y g1]|]; [|discriminate]. cbn [bind] in E.
    destruct (run_res (gen_alone (g_step m)) g1 r) as [[l g2]|] eqn:E1; [|discriminate]. cbn [bind] in E. injection E as <- _. cbn. f_equal. exact (IH _ _ _ E1). }
  eexists. split; [reflexivity|]. split; [rewrite map_length, combine_length, LY, LG; apply Nat.min_id|].
  assert (LL : length gs = length ys) by congruence. clear -FG S1 LL. revert ys S1 LL. induction FG as [|x l F FG IH]; intros ys S1 LL; [constructor|]. destruct ys as [|y ys]; [discriminate|].
  inversion S1; subst. cbn [combine map fst snd]. constructor; [apply silent_mul_r; assumption|]. apply IH; [assumption|]. cbn in LL. congruence.
Qed.
(** primed with one instead: the generator times the envelope *)
Lemma voice_primed m e g xss : Forall (fun xs => xs = [of_Z 1]) xss ->
  outputs (run_res (cycle kit_prime (kit_process m)) (kit_new g (MAdsr e) IDefault) xss) =
  both (outputs (run_res (gen_alone (g_step m)) g xss)) (Ok (fst (run adsr_process e (repeat (of_Z 1) (length xss))))).
Proof.
  intro H. rewrite kit_product. f_equal. destruct (adsr_alone m xss e) as (ys & -> & EY). cbn [outputs bind]. rewrite EY. do 3 f_equal. clear EY.
  induction H as [|x l E H IH]; [reflexivity|]. cbn [map length repeat]. rewrite IH, E. f_equal.
Qed.

Lemma voice_sound_silent m a d s r g gi go p h xs gs g' : pow10_unit m -> s <> B754_infinity true -> pos_dur a -> pos_dur d -> pos_dur r ->
  get_mut kit h p = Some (User kit (kit_new g (MAdsr (adsr_new m a d s r)) IDefault)) -> fin (to32 gi) -> fin (to32 go) -> Forall silent xs ->
  run_res (gen_alone (g_step m)) g (map (fun x => [x]) xs) = Ok (gs, g') -> Forall (fun y => fin y) gs ->
  exists ys, outputs (run_res (ss_process kit kit_prime (kit_process m) (ss_new gi go p)) h xs) = Ok ys /\ length ys = length xs /\ Forall silent ys.
Proof.
  intros HU HS Da Dd Dr HP FI FO HX EG FG. rewrite (single_sound kit_prime (kit_process m) gi go p _ h xs HP).
  assert (EG' : run_res (gen_alone (g_step m)) g (map (fun x => [fmul x (to32 gi)]) xs) = Ok (gs, g')).
  { rewrite <- EG. clear. revert g. induction xs as [|x r IH]; intro g; [reflexivity|]. cbn [map run_res]. change (gen_alone (g_step m) g [fmul x (to32 gi)]) with (gen_alone (g_step m) g [x]).
    destruct (gen_alone (g_step m) g [x]) as [[y g1]|]; [|reflexivity]. cbn [bind]. rewrite IH. reflexivity. }
  destruct (voice_silent m a d s r g (map (fun x => [fmul x (to32 gi)]) xs) gs g' HU HS Da Dd Dr EG' FG) as (ys & E & L & SY).
  { clear -HX FI. induction HX; cbn [map]; constructor; [|assumption]. constructor; [|constructor]. apply silent_mul; assumption. }
  rewrite E. cbn [bind]. eexists. split; [reflexivity|]. split; [rewrite map_length, L, map_length; reflexivity|].
  clear -SY FO. induction SY; cbn [map]; constructor; [apply silent_mul; assumption|assumption].
Qed.

(** a sustain level of -600 dB or more is a positive gain *)
Lemma sustain_pos m a d s r : pow10_unit m -> pow10_accurate m -> fin s -> -600 <= B2R s <= 2000 -> pos_dur d -> pos_dur r -> 0 < B2R (ad_s (adsr_new m a d s r)).
Proof.
  intros HU HA Fs Hs Pd Pr. destruct (new_steps m a d s r HU HA Fs ltac:(apply Rabs_le; lra) Pd Pr) as (_ & _ & _ & _ & _ & _ & _ & B & LP).
  set (L := dB (Rmin (B2R s) 0)) in *. assert (HL : bpow radix2 (-140) <= L).
  { apply Rle_trans with (dB (-600)).
    - unfold dB. replace (-600 / 20) with (- INR 30) by (cbn [INR]; lra). rewrite Rpower_Ropp, Rpower_pow by lra.
      change (bpow radix2 (-140)) with (/ IZR (Zpower_pos 2 140)). apply Rinv_le; [apply pow_lt; lra|]. rewrite pow_IZR. apply IZR_le. vm_compute. discriminate.
    - unfold L, dB. apply Rle_Rpower; [lra|]. apply Rmult_le_compat_r; [lra|]. apply Rmin_glb; lra. }
  apply Rabs_le_inv in B. change (bpow radix2 (-23)) with (/ 8388608) in B.
  assert (E : bpow radix2 (-149) * 512 = bpow radix2 (-140)) by (change 512 with (bpow radix2 9); rewrite <- bpow_plus; reflexivity).
  pose proof (bpow_gt_0 radix2 (-149)). lra.
Qed.
