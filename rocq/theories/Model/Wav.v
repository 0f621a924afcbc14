(** * WAV reading and writing: /repo/src/utils/mod.rs:91-250

    The container format itself (the external [wav] crate) is not modelled: [write_wav] yields the
    header and the data vector handed to [wav::write_wav], [read_wav] starts from the header and
    data vector returned by [wav::read_wav].  Whether those external calls fail is a parameter. *)

From Coq Require Import ZArith List Bool.
From Flocq Require Import IEEE754.BinarySingleNaN.
From Verif Require Import Model.Floats Model.SampleFormat.
Import ListNotations.

(** [wav::Header] (wav 0.1.1), only the fields BAE sets or reads *)
Record header := mkHeader { audio_format : Z; channel_count : Z; sampling_rate : Z; bits_per_sample : Z }.
(** [wav::BitDepth] *)
Inductive bit_depth := Eight (d : list Z) | Sixteen (d : list Z) | TwentyFour (d : list Z) | Empty.

(** [std::io::Result] of a call that may also panic is [res (option _)]; [None] is [Err]. *)

(** [tracks[i].push(x)], mod.rs:120,125,130 *)
Fixpoint push_at {A} (ts : list (list A)) (i : nat) (x : A) : res (list (list A)) :=
  match ts, i with
  | [], _ => Panic
  | t :: ts', O => Ok ((t ++ [x]) :: ts')
  | t :: ts', S i' => do r <- push_at ts' i' x; Ok (t :: r)
  end.

(** the loop [for i in 0..d.len()], mod.rs:119-121 (and 124-126, 129-131); [i % 0] panics *)
Fixpoint distribute {A} (cc : nat) (dec : Z -> A) (i : nat) (d : list Z) (ts : list (list A))
  : res (list (list A)) :=
  match d with
  | [] => Ok ts
  | z :: d' =>
      match cc with
      | O => Panic
      | S _ => do ts' <- push_at ts (i mod cc) (dec z); distribute cc dec (S i) d' ts'
      end
  end.

(** mod.rs:109-138; the argument is what [wav::read_wav] returned ([None]: it failed) *)
Definition read_wav (src : option (header * bit_depth)) : res (option (header * list (list f32))) :=
  match src with
  | None => Ok None
  | Some (h, bd) =>
      let cc := Z.to_nat (channel_count h) in
      let tracks := repeat [] cc in
      do ts <- match bd with
               | Eight d => distribute cc sample_from_u8 0 d tracks
               | Sixteen d => distribute cc sample_from_i16 0 d tracks
               | TwentyFour d => distribute cc sample_from_i24 0 d tracks
               | Empty => Ok tracks
               end;
      Ok (Some (h, ts))
  end.

(** mod.rs:191-195 *)
Definition clip_sample (s : f32) : f32 :=
  if fgt s (of_Z 1) then of_Z 1 else if flt s (of_Z (-1)) then of_Z (-1) else s.

(** the loop over [&mut tracks], mod.rs:185-198; [None] is the early [Err] return *)
Fixpoint check_clip (len : nat) (clip : bool) (ts : list (list f32)) : option (list (list f32)) :=
  match ts with
  | [] => Some []
  | t :: ts' =>
      if negb (Nat.eqb (length t) len) then None
      else match check_clip len clip ts' with
           | None => None
           | Some r => Some ((if clip then map clip_sample t else t) :: r)
           end
  end.

(** [for t in &tracks { v.push(enc(t[i])) }], mod.rs:205-207 *)
Fixpoint frame (enc : f32 -> Z) (i : nat) (ts : list (list f32)) : res (list Z) :=
  match ts with
  | [] => Ok []
  | t :: ts' => do s <- unwrap (nth_error t i); do r <- frame enc i ts'; Ok (enc s :: r)
  end.
(** [for i in 0..len], mod.rs:204-208, 219-223, 234-238 *)
Fixpoint interleave (enc : f32 -> Z) (is : list nat) (ts : list (list f32)) : res (list Z) :=
  match is with
  | [] => Ok []
  | i :: is' => do f <- frame enc i ts; do r <- interleave enc is' ts; Ok (f ++ r)
  end.

(** mod.rs:175-250; [wr] is the success of [wav::write_wav] on the given data *)
Definition write_wav (wr : header -> bit_depth -> bool) (tracks : list (list f32)) (bps : Z) (clip : bool)
  : res (option (header * bit_depth)) :=
  match tracks with
  | [] => Ok None
  | t0 :: _ =>
      let len := length t0 in
      match check_clip len clip tracks with
      | None => Ok None
      | Some ts =>
          let h := mkHeader 1 (Z.of_nat (length ts) mod 2 ^ 16) SAMPLE_RATE bps in
          let out enc depth :=
            do v <- interleave enc (seq 0 len) ts;
            Ok (if wr h (depth v) then Some (h, depth v) else None) in
          if Z.eqb bps 8 then out sample_to_u8 Eight
          else if Z.eqb bps 16 then out sample_to_i16 Sixteen
          else if Z.eqb bps 24 then out sample_to_i24 TwentyFour
          else Ok None
      end
  end.
