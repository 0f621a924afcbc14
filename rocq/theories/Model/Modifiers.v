(** * Modifiers: /repo/src/modifiers/*.rs, except the three filters of Model/Filters.v.
    [process] (the trait method, modifiers/mod.rs:34-42) becomes a function from the state and the
    input sample to the output sample and the next state. *)

From Coq Require Import ZArith List Bool.
From Flocq Require Import IEEE754.BinarySingleNaN.
From Verif Require Import Model.Floats Model.Utils.
Import ListNotations.
Local Open Scope Z_scope.

(** feeding a modifier a sequence of samples, for modifiers that cannot and that can panic *)
Fixpoint run {St X Y} (step : St -> X -> Y * St) (s : St) (xs : list X) : list Y * St :=
  match xs with
  | [] => ([], s)
  | x :: r => let '(y, s1) := step s x in let '(ys, s2) := run step s1 r in (y :: ys, s2)
  end.
Fixpoint run_res {St X Y} (step : St -> X -> res (Y * St)) (s : St) (xs : list X) : res (list Y * St) :=
  match xs with
  | [] => Ok ([], s)
  | x :: r => do (y, s1) <- step s x; do (ys, s2) <- run_res step s1 r; Ok (y :: ys, s2)
  end.

(** ** Gain: gain.rs:5-24; its [Clone] is derived (copy) *)
Definition gain_process (a : f32) (x : f32) : f32 * f32 := (fmul x a, a).
(** ** Passthrough: passthrough.rs:5-21 *)
Definition passthrough_process (u : unit) (x : f32) : f32 * unit := (x, u).

(** ** Delay: delay.rs.  The state is the [VecDeque], front first. *)
Definition zeros (n : Z) : list f32 := repeat f0 (Z.to_nat n).
Definition delay_new (d : duration) : list f32 := zeros (seconds_to_samples d).  (* delay.rs:16-26; the same expression as utils/mod.rs:50-52 *)
Definition delay_get_delay (md : dur_mode) (q : list f32) : res duration :=      (* delay.rs:29-31 *)
  from_secs_f64 md (fdiv (of_Z (Z.of_nat (length q))) SR64).
Definition delay_process (q : list f32) (x : f32) : res (f32 * list f32) :=      (* delay.rs:35-39 *)
  match q ++ [x] with y :: q' => Ok (y, q') | [] => Panic end.
Definition delay_clone (q : list f32) : list f32 := zeros (Z.of_nat (length q) * SAMPLE_RATE). (* delay.rs:43-55 *)

(** ** Echo: echo.rs *)
Record echo := mkEcho { e_delay : list f32; e_gain : f32 }.
Definition echo_new (d : duration) (g : f64) : echo :=                           (* echo.rs:18-28 *)
  mkEcho (zeros (to_usize (fmul (as_secs_f64 d) SR64))) (to32 g).
Definition echo_process (e : echo) (x : f32) : res (f32 * echo) :=               (* echo.rs:32-37 *)
  match e_delay e with
  | [] => Panic
  | o :: q => let wet := fadd (fmul o (e_gain e)) x in Ok (wet, mkEcho (q ++ [wet]) (e_gain e))
  end.
Definition echo_clone (e : echo) : echo :=                                       (* echo.rs:41-54 *)
  mkEcho (zeros (Z.of_nat (length (e_delay e)) * SAMPLE_RATE)) (e_gain e).

(** ** ADSR: adsr.rs *)
Inductive adsr_state := Attack | Decay | Sustain | Release | Stopped.            (* adsr.rs:8-19 *)
Record adsr := mkAdsr { ad_a : f32; ad_d : f32; ad_s : f32; ad_r : f32; ad_state : adsr_state; ad_g : f32 }.
(** adsr.rs:42-52.  [as] binds tighter than [/]: the attack step is an f32 division. *)
Definition adsr_new (m : libm) (a d : duration) (s : f64) (r : duration) : adsr :=
  let s := fmin s f0 in
  mkAdsr (fdiv (of_Z 1) (to32 (fmul (as_secs_f64 a) SR64)))
         (to32 (fdiv (fsub (db_to_linear m s) (of_Z 1)) (fmul (as_secs_f64 d) SR64)))
         (to32 (db_to_linear m s))
         (to32 (fdiv (fneg (db_to_linear m s)) (fmul (as_secs_f64 r) SR64)))
         Attack f0.
Definition adsr_release (e : adsr) : adsr :=                                     (* adsr.rs:55-57 *)
  mkAdsr (ad_a e) (ad_d e) (ad_s e) (ad_r e) Release (ad_g e).
Definition adsr_set (e : adsr) (st : adsr_state) (g : f32) : adsr :=
  mkAdsr (ad_a e) (ad_d e) (ad_s e) (ad_r e) st g.
Definition adsr_process (e : adsr) (x : f32) : f32 * adsr :=                     (* adsr.rs:61-90 *)
  let out e' := (fmul x (ad_g e'), e') in
  match ad_state e with
  | Attack => let g := fadd (ad_g e) (ad_a e) in
      out (if fge g (of_Z 1) then adsr_set e Decay (of_Z 1) else adsr_set e Attack g)
  | Decay => let g := fadd (ad_g e) (ad_d e) in
      out (if fle g (ad_s e) then adsr_set e Sustain (ad_s e) else adsr_set e Decay g)
  | Sustain => out e
  | Release => let g := fadd (ad_g e) (ad_r e) in
      out (if fle g f0 then adsr_set e Stopped f0 else adsr_set e Release g)
  | Stopped => (f0, e)
  end.
Definition adsr_clone (e : adsr) : adsr := adsr_set e Attack f0.                 (* adsr.rs:93-104 *)

(** ** Envelope: envelope.rs.  Written over arbitrary operations, so that the recurrence can also be
    read in exact arithmetic. *)
Section EnvelopeG.
Variable N : num.
Notation T := (carrier N).
Record envelope_g := mkEnv { en_au : T; en_bu : T; en_ad : T; en_bd : T; en_x1 : T; en_y1 : T }.
(** envelope.rs:26-34, from the two tangents; [one] is the literal 1.0 *)
Definition env_of_theta (one theta_u theta_d : T) : envelope_g :=
  mkEnv (ndiv N theta_u (nadd N one theta_u)) (ndiv N (nsub N one theta_u) (nadd N one theta_u))
        (ndiv N theta_d (nadd N one theta_d)) (ndiv N (nsub N one theta_d) (nadd N one theta_d))
        (nzero N) (nzero N).
(** envelope.rs:39-50 *)
Definition env_process (e : envelope_g) (x : T) : T * envelope_g :=
  let s := nadd N (nabs N x) (nabs N (en_x1 e)) in
  let y := if nlt N (en_y1 e) (nabs N x)
           then nadd N (nmul N (en_au e) s) (nmul N (en_bu e) (en_y1 e))
           else nadd N (nmul N (en_ad e) s) (nmul N (en_bd e) (en_y1 e)) in
  (y, mkEnv (en_au e) (en_bu e) (en_ad e) (en_bd e) x y).
(** envelope.rs:53-65 *)
Definition env_clone (e : envelope_g) : envelope_g :=
  mkEnv (en_au e) (en_bu e) (en_ad e) (en_bd e) (nzero N) (nzero N).
End EnvelopeG.
Arguments mkEnv {N} _ _ _ _ _ _.
Arguments en_au {N} _. Arguments en_bu {N} _. Arguments en_ad {N} _. Arguments en_bd {N} _.
Arguments en_x1 {N} _. Arguments en_y1 {N} _.
(** envelope.rs:22-24 *)
Definition env_theta (m : libm) (f : f32) : f32 := tan32 m (fmul (fmul PI32 f) (to32 INV_SAMPLE_RATE)).
Definition env_new (m : libm) (lower upper : f32) : envelope_g num32 :=
  env_of_theta num32 (of_Z 1) (env_theta m upper) (env_theta m lower).

(** ** Generic: generic.rs.  Zeros and poles are lists of (delay, coefficient), front first; so are
    the sample histories.  ([z.0 + 1] cannot overflow here: a deque that long cannot be allocated.) *)
Record generic := mkGen { gn_zeros : list (Z * f32); gn_poles : list (Z * f32); gn_in : list f32; gn_out : list f32 }.
Definition back_len (c : list (Z * f32)) : Z :=                                  (* generic.rs:31-40 *)
  match rev c with [] => 0 | p :: _ => fst p + 1 end.
Definition generic_new (z p : list (Z * f32)) : generic := mkGen z p (zeros (back_len z)) (zeros (back_len p)). (* generic.rs:30-59 *)
(** push_front then pop_back *)
Definition shift_in (h : list f32) (x : f32) : list f32 := removelast (x :: h).
(** generic.rs:69-74: [for c in cs { y += h[c.0] * c.1 }] *)
Fixpoint taps (cs : list (Z * f32)) (h : list f32) (y : f32) : res f32 :=
  match cs with
  | [] => Ok y
  | c :: r => do v <- index h (fst c); taps r h (fadd y (fmul v (snd c)))
  end.
Definition generic_process (s : generic) (x : f32) : res (f32 * generic) :=      (* generic.rs:63-80 *)
  let h := shift_in (gn_in s) x in
  do y1 <- taps (gn_zeros s) h f0;
  do y <- taps (gn_poles s) (gn_out s) y1;
  Ok (y, mkGen (gn_zeros s) (gn_poles s) h (shift_in (gn_out s) y)).
Definition generic_clone (s : generic) : generic :=                              (* generic.rs:83-104 *)
  mkGen (gn_zeros s) (gn_poles s) (zeros (Z.of_nat (length (gn_in s)))) (zeros (Z.of_nat (length (gn_out s)))).
