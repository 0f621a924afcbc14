(** * StandardChannel: /repo/src/channels/{mod,standard_channel}.rs

    Sounds are [Arc<dyn Sound>]: handles into a heap of counted cells as in Model/Sounds.v, with any
    sound type.  The sample format is any type with the operations used. *)

From Coq Require Import ZArith List Bool.
From Verif Require Import Model.Floats Model.Utils Model.Generators Model.Modifiers Model.Sounds.
Import ListNotations.
Local Open Scope Z_scope.

Section Channel.
Variable SF : Type.                                          (* the sample format *)
Variable sf_default : SF.
Variable sf_from_sample : f32 -> SF.
Variable sf_add : SF -> SF -> SF.
Variable sf_mul_s : SF -> f32 -> SF.                         (* MulAssign<SampleT> *)
Variable max_capacity : Z.                                   (* isize::MAX / size_of::<SF>() *)
Variable overflow_checks : bool.                             (* debug builds panic on overflow, release builds wrap *)
Variable S : Type.                                           (* dyn Sound *)
Variable s_register : S -> Z -> S.                           (* Sound::register *)
Variable s_get_id : S -> option Z.                           (* Sound::get_id *)
Variable s_process : S -> f32 -> res (f32 * S).              (* Sound::process *)

Record scell := mkS { s_count : Z; s_sound : S }.
Definition sheap := list scell.
Definition s_incr (d : Z) (h : sheap) (p : handle) : sheap := upd h p (fun c => mkS (s_count c + d) (s_sound c)).
Definition s_put (h : sheap) (p : handle) (s : S) : sheap := upd h p (fun c => mkS (s_count c) s).
Definition s_get_mut (h : sheap) (p : handle) : option S :=
  match nth_error h p with Some c => if s_count c =? 1 then Some (s_sound c) else None | None => None end.

(** standard_channel.rs:13-20; the map is a list of pairs with distinct keys (its iteration order is
    unspecified in Rust and never matters here, see [ch_process]) *)
Record channel := mkChannel { ch_output : list SF; ch_sounds : list (Z * handle); ch_gain : f32; ch_counter : Z }.
(** [Vec::with_capacity]: an empty vector; panics on capacity overflow *)
Definition with_capacity (n : Z) : res (list SF) := if n <=? max_capacity then Ok [] else Panic.
(** standard_channel.rs:31-38 (the capacity 480 always fits) *)
Definition ch_new (gain : f64) : channel := mkChannel [] [] (to32 gain) 0.
(** standard_channel.rs:40-46 *)
Definition ch_get_id (c : channel) : res (Z * channel) :=
  let n := ch_counter c + 1 in
  if n <? 2 ^ 64 then Ok (ch_counter c, mkChannel (ch_output c) (ch_sounds c) (ch_gain c) n)
  else if overflow_checks then Panic else Ok (ch_counter c, mkChannel (ch_output c) (ch_sounds c) (ch_gain c) 0).
(** standard_channel.rs:52-54 *)
Definition ch_set_process_time (c : channel) (d : duration) : res channel :=
  do v <- with_capacity (to_usize (fmul (as_secs_f64 d) SR64)); Ok (mkChannel v (ch_sounds c) (ch_gain c) (ch_counter c)).
(** standard_channel.rs:60-62 *)
Definition ch_set_gain (c : channel) (g : f64) : channel := mkChannel (ch_output c) (ch_sounds c) (to32 g) (ch_counter c).
(** standard_channel.rs:68-70: the sounds added to one sample *)
Fixpoint mix (h : sheap) (l : list (Z * handle)) (x : SF) : res (SF * sheap) :=
  match l with
  | [] => Ok (x, h)
  | (_, p) :: r =>
    do s <- unwrap (s_get_mut h p);
    do (y, s') <- s_process s f0;
    mix (s_put h p s') r (sf_add x (sf_from_sample y))
  end.
(** standard_channel.rs:67-73 *)
Fixpoint fill (h : sheap) (l : list (Z * handle)) (g : f32) (out : list SF) : res (list SF * sheap) :=
  match out with
  | [] => Ok ([], h)
  | x :: r => do (y, h1) <- mix h l x; do (r', h2) <- fill h1 l g r; Ok (sf_mul_s y g :: r', h2)
  end.
(** [Vec::resize_with] *)
Definition resize_with (n : nat) (v : list SF) : list SF := firstn n v ++ repeat sf_default (n - length v).
(** standard_channel.rs:64-74 *)
Definition ch_process (c : channel) (h : sheap) : res (channel * sheap) :=
  do (out, h') <- fill h (ch_sounds c) (ch_gain c) (resize_with (length (ch_output c)) (ch_output c));
  Ok (mkChannel out (ch_sounds c) (ch_gain c) (ch_counter c), h').
(** HashMap::insert / remove *)
Definition map_remove (id : Z) (l : list (Z * handle)) : list (Z * handle) := filter (fun e => negb (fst e =? id)) l.
Definition map_find (id : Z) (l : list (Z * handle)) : option handle := option_map snd (find (fun e => fst e =? id) l).
Definition drop_found (h : sheap) (o : option handle) : sheap := match o with Some p => s_incr (-1) h p | None => h end.
(** standard_channel.rs:76-80: the displaced [Arc], if any, is dropped *)
Definition ch_add_sound (c : channel) (h : sheap) (p : handle) : res (channel * sheap) :=
  do (id, c1) <- ch_get_id c;
  do s <- unwrap (s_get_mut h p);
  let h1 := s_incr 1 (s_put h p (s_register s id)) p in
  let h2 := drop_found h1 (map_find id (ch_sounds c1)) in
  Ok (mkChannel (ch_output c1) ((id, p) :: map_remove id (ch_sounds c1)) (ch_gain c1) (ch_counter c1), h2).
(** standard_channel.rs:82-84 *)
Definition ch_remove_sound (c : channel) (h : sheap) (id : Z) : channel * sheap :=
  (mkChannel (ch_output c) (map_remove id (ch_sounds c)) (ch_gain c) (ch_counter c), drop_found h (map_find id (ch_sounds c))).
(** derived [Clone], standard_channel.rs:12 *)
Definition ch_clone (c : channel) (h : sheap) : channel * sheap :=
  (c, fold_left (fun h e => s_incr 1 h (snd e)) (ch_sounds c) h).
End Channel.
