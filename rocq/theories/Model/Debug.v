(** * The debug helpers and the bin2str utility: /repo/src/debug.rs, /repo/utility/bin2str/src/main.rs *)

From Coq Require Import ZArith Bool Arith Ascii String List.
From Flocq Require Import Core.Core IEEE754.BinarySingleNaN.
From Verif Require Import Model.Floats.
Import ListNotations.
Local Open Scope nat_scope.

(** ** float_equal (debug.rs:18-23), for T = f32 or f64 and abs = T::abs *)
Definition float_equal {p e} {Hp : Prec_gt_0 p} {He : Prec_lt_emax p e} (a b eps : binary_float p e) : bool :=
  flt (fabs (fsub a b)) eps.

(** ** VecReader (debug.rs:27-51) *)
Record vec_reader := mkVR { vr_vec : list Z; vr_pos : nat }.
Definition vr_new (v : list Z) : vec_reader := mkVR v 0.                        (* debug.rs:34-39 *)
(** [buf[n] = b], panicking out of bounds *)
Definition set_nth (buf : list Z) (n : nat) (b : Z) : res (list Z) :=
  if n <? length buf then Ok (firstn n buf ++ b :: skipn (S n) buf) else Panic.
(** the while loop, debug.rs:45-49; each round increases n below buf.len(), so the length of the
    buffer bounds the number of rounds *)
Fixpoint vr_loop (rounds : nat) (r : vec_reader) (buf : list Z) (n : nat) : res (nat * list Z * vec_reader) :=
  if (n <? length buf) && (vr_pos r <? length (vr_vec r)) then
    match rounds with
    | 0 => Panic                                              (* excluded *)
    | S rounds =>
      do b <- unwrap (nth_error (vr_vec r) (vr_pos r));
      do buf' <- set_nth buf n b;
      vr_loop rounds (mkVR (vr_vec r) (S (vr_pos r))) buf' (S n)
    end
  else Ok (n, buf, r).
(** debug.rs:43-51: the count, the buffer afterwards, the reader *)
Definition vr_read (r : vec_reader) (buf : list Z) : res (nat * list Z * vec_reader) := vr_loop (length buf) r buf 0.

(** ** bin2str: strings are lists of characters, all of them ASCII *)
Definition chars (s : string) : list ascii := list_ascii_of_string s.
Definition digit (d : Z) : ascii := ascii_of_N (Z.to_N (48 + d)).
(** [format!("{}", b as i32)] for a byte *)
Definition dec (b : Z) : list ascii :=
  if (b <? 10)%Z then [digit b] else if (b <? 100)%Z then [digit (b / 10); digit (b mod 10)]
  else [digit (b / 100); digit (b / 10 mod 10); digit (b mod 10)].
(** [String::pop], [Iterator::position], [String::insert_str] *)
Definition pop (s : list ascii) : list ascii := removelast s.
Fixpoint position (c : ascii) (s : list ascii) : option nat :=
  match s with [] => None | x :: r => if (x =? c)%char then Some 0 else option_map S (position c r) end.
Definition insert_str (s : list ascii) (pos : nat) (t : list ascii) : list ascii := firstn pos s ++ t ++ skipn pos s.
(** main.rs:7-21 *)
Definition b2c_step (st : list ascii * nat) (b : Z) : res (list ascii * nat) :=
  let '(s, counter) := st in
  let push := dec b ++ chars ", " in
  let s := s ++ push in
  let counter := counter + length push in
  if 80 <? counter then
    let s := pop s in
    do k <- unwrap (position " "%char (rev s));
    let pos := length s - 1 - k in
    let s := insert_str s pos (chars (String (ascii_of_nat 10) "   ")) in
    let s := s ++ chars " " in
    Ok (s, length s - pos - 1)
  else Ok (s, counter).
Fixpoint b2c_loop (st : list ascii * nat) (x : list Z) : res (list ascii * nat) :=
  match x with [] => Ok st | b :: r => do st' <- b2c_step st b; b2c_loop st' r end.
(** main.rs:1-24 *)
Definition byte2char (x : list Z) : res (list ascii) :=
  do (s, _) <- b2c_loop (chars "    ", length (chars "    ")) x; Ok s.
(** main.rs:26-34, for a source that delivers its bytes without error *)
Definition convert_file (x : list Z) : res (list ascii) := do s <- byte2char x; Ok (pop (pop s)).
