(** * What the text of a table of bytes means, and the bytes a reader still has to deliver *)

From Coq Require Import ZArith List Bool Arith Ascii.
Import ListNotations.

(** ** the elements of a Rust array literal of decimal numbers: numbers separated by commas, white space
    allowed around them but not inside, one trailing comma allowed *)
Inductive reading := Between (done : list Z) | Number (done : list Z) (n : Z) | Ended (done : list Z) (n : Z) | Malformed.
Definition char_code (c : ascii) : Z := Z.of_N (N_of_ascii c).
Definition is_white (c : ascii) : bool := (char_code c =? 32)%Z || (char_code c =? 10)%Z.
Definition is_comma (c : ascii) : bool := (char_code c =? 44)%Z.
Definition as_digit (c : ascii) : option Z := let d := (char_code c - 48)%Z in if ((0 <=? d) && (d <? 10))%Z then Some d else None.
Definition read_char (st : reading) (c : ascii) : reading :=
  match st with
  | Between l => if is_white c then Between l else match as_digit c with Some d => Number l d | None => Malformed end
  | Number l n => if is_white c then Ended l n else if is_comma c then Between (l ++ [n])
                  else match as_digit c with Some d => Number l (10 * n + d)%Z | None => Malformed end
  | Ended l n => if is_white c then Ended l n else if is_comma c then Between (l ++ [n]) else Malformed
  | Malformed => Malformed
  end.
Definition read_text (s : list ascii) : option (list Z) :=
  match fold_left read_char s (Between []) with
  | Between l => Some l | Number l n => Some (l ++ [n]) | Ended l n => Some (l ++ [n]) | Malformed => None
  end.
(** the lines of a text *)
Fixpoint lines_from (cur : list ascii) (s : list ascii) : list (list ascii) :=
  match s with [] => [cur] | c :: r => if (char_code c =? 10)%Z then cur :: lines_from [] r else lines_from (cur ++ [c]) r end.
Definition lines (s : list ascii) : list (list ascii) := lines_from [] s.

(** ** a reader over the bytes still to come: the count, the buffer afterwards, the bytes left *)
Definition read_spec (rest : list Z) (buf : list Z) : nat * list Z * list Z :=
  let n := Nat.min (length buf) (length rest) in (n, firstn n rest ++ skipn n buf, skipn n rest).
