(** * Feedback connections of a ComplexSound *)
From Coq Require Import List Arith Bool.
From Verif Require Import Model.Floats Model.Sounds Spec.SoundSpec.
Import ListNotations.

(** some of the connections [E] are meant as feedback ([back]), the others go forward *)
Definition forward (E : nat -> nat -> Prop) (back : nat -> nat -> bool) (a b : nat) : Prop := E a b /\ back a b = false.
(** [t] lies upstream of [a]: [t] is fed, and every way from a source to [a] leads through [t] *)
Definition upstream (n : nat) (F : nat -> nat -> Prop) (t a : nat) : Prop :=
  t <> a /\ (exists p, F p t) /\ forall s, source n F s -> ~ leads (fun x y => F x y /\ y <> t) s a.
(** every feedback connection goes to a block upstream of where it comes from *)
Definition with_feedback (n : nat) (E : nat -> nat -> Prop) (back : nat -> nat -> bool) : Prop :=
  forall a t, E a t -> back a t = true -> upstream n (forward E back) t a.
(** the same edits, the feedback connections cut instead of made *)
Definition opened (back : nat -> nat -> bool) (o : cop) : cop :=
  match o with CConnect a b => if back a b then CDisconnect a b else o | _ => o end.
(** what block [m] gets in call [k]: what the blocks of [Q m] put out in the call before, the sound's own input (block 0
    only), what the blocks of [P m] put out in this call *)
Definition fed_back (P Q : nat -> list nat) (xs : list f32) (out : nat -> nat -> f32) (m k : nat) : list f32 :=
  match k with O => [] | S j => map (fun a => out a j) (Q m) end ++
  (if m =? 0 then [nth k xs f0] else []) ++ map (fun a => out a k) (P m).
