(** * Opening a file and saving it again *)

From Coq Require Import ZArith List.
From Flocq Require Import IEEE754.BinarySingleNaN.
From Verif Require Import Model.Floats Model.SampleFormat Model.Wav.
Import ListNotations.

(** a data vector of the given depth *)
Definition of_depth (bps : Z) (d : list Z) : bit_depth :=
  if Z.eqb bps 8 then Eight d else if Z.eqb bps 16 then Sixteen d else TwentyFour d.
(** integers of the given depth, as they are in a file *)
Definition in_depth (bps z : Z) : Prop :=
  (bps = 8 /\ 0 <= z <= 255)%Z \/ (bps = 16 /\ -32768 <= z <= 32767)%Z \/ (bps = 24 /\ - 2 ^ 23 <= z <= 2 ^ 23 - 1)%Z.
(** not the most negative integer of 16 or 24 bits, which stands for a sample just below -1 *)
Definition above_lowest (bps z : Z) : Prop := ~ (bps = 16 /\ z = -32768)%Z /\ ~ (bps = 24 /\ z = - 2 ^ 23)%Z.
(** read_wav, then write_wav of the tracks it gave *)
Definition resave (h : header) (bd : bit_depth) (bps : Z) (clip : bool) : res (option (header * bit_depth)) :=
  do r <- read_wav (Some (h, bd));
  match r with Some (_, ts) => write_wav (fun _ _ => true) ts bps clip | None => Ok None end.
