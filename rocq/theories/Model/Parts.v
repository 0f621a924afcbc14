(** * BAE's own generators, modifiers and interactors as parts of a StandardBlock

    [Arc<dyn Generator>], [Arc<dyn Modifier>] and [Arc<dyn FnMut>] restricted to the types the library
    itself provides: generators/mod.rs:12-27, modifiers/mod.rs:5-32, standard_block.rs:136-154. *)

From Coq Require Import ZArith List Bool.
From Verif Require Import Model.Floats Model.Utils Model.Generators Model.Modifiers Model.Filters Model.Resampler Model.Sounds.
Import ListNotations.

(** ** generators; [GNoise draw n]: the random engine will return [draw n], [draw (n+1)], ... *)
Inductive gpart :=
| GZero | GNoise (draw : nat -> f32) (n : nat)
| GSaw (s : sawtooth) | GTri (s : triangle) | GSq (s : square) | GSin (s : sine) | GWav (r : resampler).
Definition g_step (m : libm) (g : gpart) : res (f32 * gpart) :=                  (* Generator::process *)
  match g with
  | GZero => Ok (fst (zero_process tt), GZero)
  | GNoise draw n => Ok (noise_process (draw n), GNoise draw (S n))
  | GSaw s => let '(y, s') := saw_process s in Ok (y, GSaw s')
  | GTri s => let '(y, s') := tri_process s in Ok (y, GTri s')
  | GSq s => let '(y, s') := sq_process s in Ok (y, GSq s')
  | GSin s => do (y, s') <- sin_process m s; Ok (y, GSin s')
  | GWav r => do (y, r') <- monowav_process r; Ok (y, GWav r')
  end.
(** ** modifiers *)
Inductive mpart :=
| MPass | MGain (a : f32) | MDelay (q : list f32) | MEcho (e : echo) | MLow (s : lowpass) | MHigh (s : highpass) | MBand (s : bandpass)
| MEnv (e : envelope_g num32) | MAdsr (e : adsr) | MGeneric (s : generic).
Definition m_step (m : libm) (p : mpart) (x : f32) : res (f32 * mpart) :=        (* Modifier::process *)
  match p with
  | MPass => Ok (fst (passthrough_process tt x), MPass)
  | MGain a => let '(y, a') := gain_process a x in Ok (y, MGain a')
  | MDelay q => do (y, q') <- delay_process q x; Ok (y, MDelay q')
  | MEcho e => do (y, e') <- echo_process e x; Ok (y, MEcho e')
  | MLow s => let '(y, s') := lp_process s x in Ok (y, MLow s')
  | MHigh s => let '(y, s') := hp_process s x in Ok (y, MHigh s')
  | MBand s => let '(y, s') := bp_process m s x in Ok (y, MBand s')
  | MEnv e => let '(y, e') := env_process num32 e x in Ok (y, MEnv e')
  | MAdsr e => let '(y, e') := adsr_process e x in Ok (y, MAdsr e')
  | MGeneric s => do (y, s') <- generic_process s x; Ok (y, MGeneric s')
  end.
(** ** interactors, standard_block.rs:136-154 *)
Inductive ipart := IDefault | IGenerator | IModifier.
Definition i_step (i : ipart) (ge mo : f32) : res (f32 * ipart) :=
  do (y, _) <- match i with
               | IDefault => default_interactor tt ge mo
               | IGenerator => generator_passthrough tt ge mo
               | IModifier => modifier_passthrough tt ge mo
               end; Ok (y, i).

Definition kit := stdblock gpart mpart ipart.
Definition kit_new (g : gpart) (m : mpart) (i : ipart) : kit := sb_new g m i 1.  (* standard_block.rs:72-82 *)
Definition kit_generator (g : gpart) : kit := kit_new g MPass IGenerator.        (* standard_block.rs:96-107 *)
Definition kit_modifier (m : mpart) : kit := kit_new GZero m IModifier.          (* standard_block.rs:121-132 *)
Definition kit_prime : kit -> f32 -> kit := sb_prime.
Definition kit_process (m : libm) : kit -> res (f32 * kit) := sb_process (g_step m) (m_step m) i_step.
(** assigning a new [Arc] through [get_g_mut], [get_m_mut], standard_block.rs:173-182; [c]: how many handles to it exist *)
Definition kit_set_g (b : kit) (g : gpart) (c : Z) : kit := mkSB g c (sb_m b) (sb_mc b) (sb_i b) (sb_ic b) (sb_input b).
Definition kit_set_m (b : kit) (p : mpart) (c : Z) : kit := mkSB (sb_g b) (sb_gc b) p c (sb_i b) (sb_ic b) (sb_input b).
