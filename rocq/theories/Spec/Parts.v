(** * Driving a block the way sounds do: any number of inputs, then one process call *)
From Coq Require Import List ZArith Reals.
From Flocq Require Import IEEE754.BinarySingleNaN.
From Verif Require Import Model.Floats Model.Utils Model.Generators Model.Modifiers Model.Resampler Model.Sounds Model.Parts Spec.SoundSpec.
Import ListNotations.

(** what arrives at the modifier: the inputs added up *)
Definition sum_in (xs : list f32) : f32 := fold_left fadd xs f0.
Definition cycle {B} (prime : B -> f32 -> B) (process : B -> res (f32 * B)) (b : B) (xs : list f32) : res (f32 * B) :=
  process (fold_left prime xs b).
(** the generator alone, sampled once per cycle; the modifier alone, fed the sum of each cycle *)
Definition gen_alone {G} (gp : G -> res (f32 * G)) (g : G) (xs : list f32) : res (f32 * G) := gp g.
Definition mod_alone {M} (mp : M -> f32 -> res (f32 * M)) (m : M) (xs : list f32) : res (f32 * M) := mp m (sum_in xs).
Definition both (a b : res (list f32)) : res (list f32) :=
  match a, b with Ok u, Ok v => Ok (map (fun p => fmul (fst p) (snd p)) (combine u v)) | _, _ => Panic end.

(** an ADSR that nobody has released *)
Definition held_note (p : mpart) : Prop :=
  match p with MAdsr e => ad_state e = Attack \/ ad_state e = Decay \/ ad_state e = Sustain | _ => True end.

Definition held_heap (h : heap kit) : Prop :=
  forall n c, nth_error h n = Some c -> match c_block kit c with User _ b => held_note (sb_m b) | Gainer _ g => sb_gc g = 1%Z /\ sb_mc g = 1%Z /\ sb_ic g = 1%Z end.
(** a finite sample of value zero, of either sign *)
Definition silent (x : f32) : Prop := is_finite x = true /\ B2R x = 0%R.

(** nothing but the sound's own handles: blocks are moved in, connections are between existing blocks *)
Definition owned (U : Type) (h : heap U) (p : handle) : Prop := exists c, nth_error h p = Some c /\ c_count U c = 1%Z.
Definition proper (U : Type) (h : heap U) (pre : list cop) (o : cop) : Prop :=
  match o with
  | CAddBlock p => owned U h p
  | CConnect a b => a < blocks pre /\ b < blocks pre
  | CShare _ | CUnshare _ => False
  | _ => True
  end.
Definition proper_history (U : Type) (h : heap U) (ops : list cop) : Prop :=
  forall pre o post, ops = pre ++ o :: post -> proper U h pre o.

(** parts as their constructors make them, with arguments for which processing is known to be safe:
    sine frequencies of 0 to 48000 Hz, unlooped tracks of a length that is not 2^k+1, echoes of at least
    one sample, difference equations whose longest delay comes last *)
Definition made_g (g : gpart) : Prop :=
  match g with
  | GSin s => exists f, s = sin_new f /\ is_finite f = true /\ (0 <= B2R f <= 48000)%R
  | GWav r => exists rate t, r = monowav_from_track rate t /\ (Z.of_nat (length t) <= 2 ^ 24)%Z /\
              forall k, (0 <= k <= 22)%Z -> Z.of_nat (length t) <> (2 ^ k + 1)%Z
  | _ => True
  end.
Definition made_m (p : mpart) : Prop :=
  match p with
  | MEcho e => exists d g, e = echo_new d g /\ e_delay (echo_new d g) <> []
  | MGeneric s => exists z p, s = generic_new z p /\ (forall c, In c z -> (0 <= fst c < back_len z)%Z) /\ (forall c, In c p -> (0 <= fst c < back_len p)%Z)
  | _ => True
  end.
Definition made (b : kit) : Prop := exists g p i, b = kit_new g p i /\ made_g g /\ made_m p.
(** every block in memory is such a block, in the hands of any number of owners *)
Definition made_heap (h : heap kit) : Prop := forall n c, nth_error h n = Some c -> exists b, c_block kit c = User kit b /\ made b.
