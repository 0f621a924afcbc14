(** * Blocks made of library parts *)
From Coq Require Import ZArith List Bool Lia Arith.
From Flocq Require Import IEEE754.BinarySingleNaN.
From Verif Require Import Model.Floats Model.Utils Model.Generators Model.Modifiers Model.Filters Model.Resampler Model.Sounds Model.Parts
  Spec.SoundSpec Spec.Parts Proof.SoundsP Proof.SoundsP2 Proof.SoundsP3.
Import ListNotations.

Section Cycles.
Context {G M I : Type} (gp : G -> res (f32 * G)) (mp : M -> f32 -> res (f32 * M)) (ip : I -> f32 -> f32 -> res (f32 * I)).
Notation cyc := (cycle sb_prime (sb_process gp mp ip)).
Lemma prime_all xs : forall b : stdblock G M I, fold_left sb_prime xs b =
  mkSB (sb_g b) (sb_gc b) (sb_m b) (sb_mc b) (sb_i b) (sb_ic b) (fold_left fadd xs (sb_input b)).
Proof. induction xs as [|x r IH]; intro b; [destruct b; reflexivity|]. cbn [fold_left]. rewrite IH. reflexivity. Qed.
Lemma cycle_new g m i xs : cyc (sb_new g m i 1) xs =
  (do (ge, g') <- gp g; do (mo, m') <- mp m (sum_in xs); do (y, i') <- ip i ge mo; Ok (y, sb_new g' m' i' 1)).
Proof. unfold cycle. rewrite prime_all. unfold sum_in. unfold sb_process. cbn [sb_new sb_g sb_gc sb_m sb_mc sb_i sb_ic sb_input get_mut_unwrap]. reflexivity. Qed.
End Cycles.

Lemma outputs_cons {St X Y} (step : St -> X -> res (Y * St)) s x r : outputs (run_res step s (x :: r)) =
  (do (y, s') <- step s x; do ys <- outputs (run_res step s' r); Ok (y :: ys)).
Proof.
  cbn [run_res]. destruct (step s x) as [[y s']|]; [|reflexivity].
  change (outputs (do (ys, s2) <- run_res step s' r; Ok (y :: ys, s2)) = (do ys <- outputs (run_res step s' r); Ok (y :: ys))).
  destruct (run_res step s' r) as [[ys s2]|]; reflexivity.
Qed.

Lemma generator_block {G M I} (gp : G -> res (f32 * G)) (mp : M -> f32 -> res (f32 * M)) (ip : I -> f32 -> f32 -> res (f32 * I)) i xss :
  (forall m x, exists y m', mp m x = Ok (y, m')) -> (forall a b, ip i a b = Ok (a, i)) ->
  forall g m, outputs (run_res (cycle sb_prime (sb_process gp mp ip)) (sb_new g m i 1) xss) = outputs (run_res (gen_alone gp) g xss).
Proof.
  intros HM HI. induction xss as [|xs r IH]; intros g m; [reflexivity|]. rewrite !outputs_cons, cycle_new. unfold gen_alone at 1.
  destruct (gp g) as [[ge g']|]; [|reflexivity]. destruct (HM m (sum_in xs)) as (mo & m' & ->). cbn [bind]; rewrite HI; cbn [bind]; rewrite IH. reflexivity.
Qed.
Lemma modifier_block {G M I} (gp : G -> res (f32 * G)) (mp : M -> f32 -> res (f32 * M)) (ip : I -> f32 -> f32 -> res (f32 * I)) i xss :
  (forall g, exists y g', gp g = Ok (y, g')) -> (forall a b, ip i a b = Ok (b, i)) ->
  forall g m, outputs (run_res (cycle sb_prime (sb_process gp mp ip)) (sb_new g m i 1) xss) = outputs (run_res (mod_alone mp) m xss).
Proof.
  intros HG HI. induction xss as [|xs r IH]; intros g m; [reflexivity|]. rewrite !outputs_cons, cycle_new. unfold mod_alone at 1.
  destruct (HG g) as (ge & g' & ->). destruct (mp m (sum_in xs)) as [[mo m']|]; [|reflexivity]. cbn [bind]; rewrite HI; cbn [bind]; rewrite IH. reflexivity.
Qed.
Lemma product_block {G M I} (gp : G -> res (f32 * G)) (mp : M -> f32 -> res (f32 * M)) (ip : I -> f32 -> f32 -> res (f32 * I)) i xss :
  (forall a b, ip i a b = Ok (fmul a b, i)) ->
  forall g m, outputs (run_res (cycle sb_prime (sb_process gp mp ip)) (sb_new g m i 1) xss) =
    both (outputs (run_res (gen_alone gp) g xss)) (outputs (run_res (mod_alone mp) m xss)).
Proof.
  intro HI. induction xss as [|xs r IH]; intros g m; [reflexivity|]. rewrite !outputs_cons, cycle_new. unfold mod_alone at 1, gen_alone at 1.
  destruct (gp g) as [[ge g']|]; [|reflexivity]. destruct (mp m (sum_in xs)) as [[mo m']|].
  - cbn [bind]; rewrite HI; cbn [bind]; rewrite IH. destruct (outputs (run_res (gen_alone gp) g' r)) as [u|]; [|reflexivity].
    destruct (outputs (run_res (mod_alone mp) m' r)) as [v|]; reflexivity.
  - cbn [bind]. destruct (outputs (run_res (gen_alone gp) g' r)); reflexivity.
Qed.

(** ** kits *)
Lemma kit_cycle m g p i xs : cycle kit_prime (kit_process m) (kit_new g p i) xs =
  (do (ge, g') <- g_step m g; do (mo, p') <- m_step m p (sum_in xs); do (y, i') <- i_step i ge mo; Ok (y, kit_new g' p' i')).
Proof. exact (cycle_new (g_step m) (m_step m) i_step g p i xs). Qed.
Lemma kit_generator_plays m g xss : outputs (run_res (cycle kit_prime (kit_process m)) (kit_generator g) xss) = outputs (run_res (gen_alone (g_step m)) g xss).
Proof.
  (* the modifier is Passthrough all along *)
  revert g. induction xss as [|xs r IH]; intro g; [reflexivity|]. rewrite !outputs_cons. unfold kit_generator. rewrite kit_cycle.
  unfold gen_alone at 1. destruct (g_step m g) as [[ge g']|]; [|reflexivity]. cbn [bind m_step passthrough_process fst i_step generator_passthrough].
  unfold kit_generator in IH. rewrite IH. reflexivity.
Qed.
Lemma kit_modifier_filters m p xss : outputs (run_res (cycle kit_prime (kit_process m)) (kit_modifier p) xss) = outputs (run_res (mod_alone (m_step m)) p xss).
Proof.
  revert p. induction xss as [|xs r IH]; intro p; [reflexivity|]. rewrite !outputs_cons. unfold kit_modifier. rewrite kit_cycle.
  unfold mod_alone at 1. cbn [bind g_step]. destruct (m_step m p (sum_in xs)) as [[mo p']|]; [|reflexivity]. cbn [bind i_step modifier_passthrough].
  unfold kit_modifier in IH. rewrite IH. reflexivity.
Qed.
Lemma kit_product m g p xss : outputs (run_res (cycle kit_prime (kit_process m)) (kit_new g p IDefault) xss) =
  both (outputs (run_res (gen_alone (g_step m)) g xss)) (outputs (run_res (mod_alone (m_step m)) p xss)).
Proof. apply product_block. reflexivity. Qed.

Lemma i_step_total i a b : exists y, i_step i a b = Ok (y, i).
Proof. destruct i; cbn; eauto. Qed.
(** both parts advance independently, whatever the interactor *)
Lemma kit_parts m i xss : forall g p ys b, run_res (cycle kit_prime (kit_process m)) (kit_new g p i) xss = Ok (ys, b) ->
  exists gs ms g' p', run_res (gen_alone (g_step m)) g xss = Ok (gs, g') /\ run_res (mod_alone (m_step m)) p xss = Ok (ms, p') /\ b = kit_new g' p' i.
Proof.
  induction xss as [|xs r IH]; intros g p ys b E.
  - cbn [run_res] in E. injection E as <- <-. exists [], [], g, p. auto.
  - cbn [run_res] in E. rewrite kit_cycle in E.
    destruct (g_step m g) as [[ge g1]|] eqn:E1; [|discriminate]. destruct (m_step m p (sum_in xs)) as [[mo p1]|] eqn:E2; [|discriminate].
    destruct (i_step_total i ge mo) as [y E3]. cbn [bind] in E. rewrite E3 in E. cbn [bind] in E.
    destruct (run_res (cycle kit_prime (kit_process m)) (kit_new g1 p1 i) r) as [[ys' b']|] eqn:E4; [|discriminate].
    injection E as <- <-. destruct (IH g1 p1 ys' b' E4) as (gs & ms & g' & p' & A & B & C).
    exists (ge :: gs), (mo :: ms), g', p'. split; [|split; [|exact C]]; cbn [run_res].
    + unfold gen_alone at 1. rewrite E1. cbn [bind]. rewrite A. reflexivity.
    + unfold mod_alone at 1. rewrite E2. cbn [bind]. rewrite B. reflexivity.
Qed.
Lemma kit_swap m i xss g p ys b : run_res (cycle kit_prime (kit_process m)) (kit_new g p i) xss = Ok (ys, b) ->
  exists gs ms g' p', run_res (gen_alone (g_step m)) g xss = Ok (gs, g') /\ run_res (mod_alone (m_step m)) p xss = Ok (ms, p') /\
    (forall q, kit_set_m b q 1 = kit_new g' q i) /\ (forall q, kit_set_g b q 1 = kit_new q p' i).
Proof. intro E. destruct (kit_parts m i xss g p ys b E) as (gs & ms & g' & p' & A & B & ->). exists gs, ms, g', p'. repeat split; assumption. Qed.

(** ** the parts are the library's generators and modifiers *)
Lemma run_lift {St P X} (inj : St -> P) (step : St -> X -> f32 * St) (pstep : P -> X -> res (f32 * P)) :
  (forall s x, pstep (inj s) x = (let '(y, s') := step s x in Ok (y, inj s'))) ->
  forall xs s, outputs (run_res pstep (inj s) xs) = Ok (fst (run step s xs)).
Proof.
  intro H. induction xs as [|x xs IH]; intro s; [reflexivity|]. rewrite outputs_cons, H. cbn [run]. destruct (step s x) as [y s']. cbn [bind]. rewrite IH. cbn [bind].
  destruct (run step s' xs) as [ys s2]. reflexivity.
Qed.
Lemma run_lift_res {St P X} (inj : St -> P) (step : St -> X -> res (f32 * St)) (pstep : P -> X -> res (f32 * P)) :
  (forall s x, pstep (inj s) x = (do (y, s') <- step s x; Ok (y, inj s'))) ->
  forall xs s, outputs (run_res pstep (inj s) xs) = outputs (run_res step s xs).
Proof.
  intro H. induction xs as [|x xs IH]; intro s; [reflexivity|]. rewrite !outputs_cons, H. destruct (step s x) as [[y s']|]; [|reflexivity]. cbn [bind]. rewrite IH. reflexivity.
Qed.
Lemma noise_alone m draw xss : forall n, outputs (run_res (gen_alone (g_step m)) (GNoise draw n) xss) = Ok (map (fun k => noise_process (draw k)) (seq n (length xss))).
Proof. induction xss as [|xs xss IH]; intro n; [reflexivity|]. rewrite outputs_cons. cbn [gen_alone g_step bind]. rewrite IH. reflexivity. Qed.
Lemma zero_alone m xss : outputs (run_res (gen_alone (g_step m)) GZero xss) = Ok (map (fun _ => f0) xss).
Proof. induction xss as [|xs xss IH]; [reflexivity|]. rewrite outputs_cons. cbn [gen_alone g_step bind]. rewrite IH. reflexivity. Qed.
Lemma library_generators m xss :
  outputs (run_res (gen_alone (g_step m)) GZero xss) = Ok (map (fun _ => f0) xss) /\
  (forall draw n, outputs (run_res (gen_alone (g_step m)) (GNoise draw n) xss) = Ok (map (fun k => noise_process (draw k)) (seq n (length xss)))) /\
  (forall s, outputs (run_res (gen_alone (g_step m)) (GSaw s) xss) = Ok (fst (run (fun s _ => saw_process s) s xss))) /\
  (forall s, outputs (run_res (gen_alone (g_step m)) (GTri s) xss) = Ok (fst (run (fun s _ => tri_process s) s xss))) /\
  (forall s, outputs (run_res (gen_alone (g_step m)) (GSq s) xss) = Ok (fst (run (fun s _ => sq_process s) s xss))) /\
  (forall s, outputs (run_res (gen_alone (g_step m)) (GSin s) xss) = outputs (run_res (fun s _ => sin_process m s) s xss)) /\
  (forall r, outputs (run_res (gen_alone (g_step m)) (GWav r) xss) = outputs (run_res (fun r _ => monowav_process r) r xss)).
Proof.
  split; [apply zero_alone|]. split; [intros; apply noise_alone|]. repeat split; intro s; first [apply run_lift; reflexivity | apply run_lift_res; reflexivity].
Qed.
Lemma library_modifiers m xs : let alone p := outputs (run_res (m_step m) p xs) in
  alone MPass = Ok xs /\
  (forall a, alone (MGain a) = Ok (map (fun x => fmul x a) xs)) /\
  (forall q, alone (MDelay q) = outputs (run_res delay_process q xs)) /\
  (forall e, alone (MEcho e) = outputs (run_res echo_process e xs)) /\
  (forall s, alone (MLow s) = Ok (fst (run lp_process s xs))) /\
  (forall s, alone (MHigh s) = Ok (fst (run hp_process s xs))) /\
  (forall s, alone (MBand s) = Ok (fst (run (bp_process m) s xs))) /\
  (forall e, alone (MEnv e) = Ok (fst (run (env_process num32) e xs))) /\
  (forall e, alone (MAdsr e) = Ok (fst (run adsr_process e xs))) /\
  (forall s, alone (MGeneric s) = outputs (run_res generic_process s xs)).
Proof.
  cbv zeta. split; [induction xs as [|x r IH]; [reflexivity|]; rewrite outputs_cons; cbn [m_step bind]; rewrite IH; reflexivity|].
  split; [intro a; induction xs as [|x r IH]; [reflexivity|]; rewrite outputs_cons; cbn [m_step bind]; unfold gain_process; cbn [bind]; rewrite IH; reflexivity|].
  repeat split; intro s; first [apply run_lift_res; reflexivity | apply (run_lift MLow); reflexivity | apply (run_lift MHigh); reflexivity | apply (run_lift MBand); reflexivity | apply (run_lift MEnv); reflexivity | apply (run_lift MAdsr); reflexivity].
Qed.
Lemma shared_swap m (b : kit) g p c : c <> 1%Z ->
  kit_process m (kit_set_m (kit_set_g b g c) p 1) = Panic /\ kit_process m (kit_set_g (kit_set_m b p c) g 1) = Panic.
Proof.
  intro C. apply Z.eqb_neq in C. unfold kit_process, sb_process, kit_set_m, kit_set_g, get_mut_unwrap. cbn [sb_ic sb_i sb_gc sb_g sb_mc sb_m sb_input]. rewrite C.
  destruct (sb_ic b =? 1)%Z; cbn [bind]; [|split; reflexivity]. split; [reflexivity|]. change (1 =? 1)%Z with true. cbn [bind]. destruct (g_step m g) as [[y g']|]; reflexivity.
Qed.
