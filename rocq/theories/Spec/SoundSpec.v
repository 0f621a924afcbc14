(** * What is expected of blocks and sounds, stated without the heap, the graph or the ordering code *)
From Coq Require Import ZArith List Bool Arith.
From Verif Require Import Model.Floats Model.Modifiers Model.Sounds.
Import ListNotations.

(** ** a block: three parts, the inputs primed since the last process, the outside handles to each part *)
Inductive bop := BPrime (x : f32) | BProcess | BShare (p : part) | BUnshare (p : part).
Section Block.
Variables G M I : Type.
Variable gp : G -> res (f32 * G). Variable mp : M -> f32 -> res (f32 * M). Variable ip : I -> f32 -> f32 -> res (f32 * I).
Record bspec := mkBS { bs_g : G; bs_m : M; bs_i : I; bs_pending : list f32; bs_eg : Z; bs_em : Z; bs_ei : Z }.
Definition bspec_step (s : bspec) (o : bop) : res (option f32 * bspec) :=
  let 'mkBS g m i xs eg em ei := s in
  match o with
  | BPrime x => Ok (None, mkBS g m i (xs ++ [x]) eg em ei)
  | BShare PartG => Ok (None, mkBS g m i xs (eg + 1) em ei)
  | BShare PartM => Ok (None, mkBS g m i xs eg (em + 1) ei)
  | BShare PartI => Ok (None, mkBS g m i xs eg em (ei + 1))
  | BUnshare PartG => Ok (None, mkBS g m i xs (eg - 1) em ei)
  | BUnshare PartM => Ok (None, mkBS g m i xs eg (em - 1) ei)
  | BUnshare PartI => Ok (None, mkBS g m i xs eg em (ei - 1))
  | BProcess =>
    if ((eg =? 0) && (em =? 0) && (ei =? 0))%Z then
      match gp g, mp m (fold_left fadd xs f0) with
      | Ok (a, g'), Ok (b, m') =>
        match ip i a b with Ok (y, i') => Ok (Some y, mkBS g' m' i' [] eg em ei) | Panic => Panic end
      | _, _ => Panic
      end
    else Panic
  end.
(** the driver: the same operations on the modelled block *)
Definition block_step (b : stdblock G M I) (o : bop) : res (option f32 * stdblock G M I) :=
  match o with
  | BPrime x => Ok (None, sb_prime b x)
  | BProcess => do (y, b') <- sb_process gp mp ip b; Ok (Some y, b')
  | BShare p => Ok (None, sb_count 1 p b)
  | BUnshare p => Ok (None, sb_count (-1) p b)
  end.
End Block.
Arguments mkBS {G M I}. Arguments bspec_step {G M I}. Arguments block_step {G M I}.

(** ** blocks in series, each owned outright *)
Section Series.
Variable B : Type. Variable prime : B -> f32 -> B. Variable process : B -> res (f32 * B).
Fixpoint series (bs : list B) (x : f32) : res (f32 * list B) :=
  match bs with
  | [] => Ok (x, [])
  | b :: r => do (y, b') <- process (prime b x); do (z, r') <- series r y; Ok (z, b' :: r')
  end.
(** ... where [None] is a block somebody else also holds: it is passed over *)
Fixpoint series_opt (bs : list (option B)) (x : f32) : res (f32 * list (option B)) :=
  match bs with
  | [] => Ok (x, [])
  | Some b :: r => do (y, b') <- process (prime b x); do (z, r') <- series_opt r y; Ok (z, Some b' :: r')
  | None :: r => do (z, r') <- series_opt r x; Ok (z, None :: r')
  end.
(** a generator followed by modifiers; a shared generator counts as silence *)
Definition simple_spec (gi go : f32) (bs : option B * list (option B)) (x : f32) : res (f32 * (option B * list (option B))) :=
  match fst bs with
  | Some g => do (y, g') <- process (prime g (fmul x gi)); do (z, ms) <- series_opt (snd bs) y; Ok (fmul z go, (Some g', ms))
  | None => do (z, ms) <- series_opt (snd bs) f0; Ok (fmul z go, (None, ms))
  end.
(** every block owned outright, and the two gains *)
Definition scaled_series (gi go : f32) (bs : list B) (x : f32) : res (f32 * list B) :=
  do (y, bs') <- series bs (fmul x gi); Ok (fmul y go, bs').
End Series.
Arguments scaled_series {B}.
Arguments series {B}. Arguments series_opt {B}. Arguments simple_spec {B}.

(** ** histories of a sound, and the effect of the pause and mute switches on them *)
Inductive opkind := KProcess | KPause | KMute | KOther.
Section Switches.
Variable Op : Type. Variable kind : Op -> opkind.
(** the history without the process calls made while paused ([p]: paused now) *)
Fixpoint unpaused (p : bool) (ops : list Op) : list Op :=
  match ops with
  | [] => []
  | o :: r => match kind o with
              | KPause => o :: unpaused (negb p) r
              | KProcess => if p then unpaused p r else o :: unpaused p r
              | _ => o :: unpaused p r
              end
  end.
(** the results of the full history, from those of the shortened one: paused calls give 0 *)
Fixpoint with_paused (p : bool) (ops : list Op) (rs : list (option f32)) : list (option f32) :=
  match ops with
  | [] => []
  | o :: r => match kind o with
              | KPause => hd None rs :: with_paused (negb p) r (tl rs)
              | KProcess => if p then Some f0 :: with_paused p r rs else hd None rs :: with_paused p r (tl rs)
              | _ => hd None rs :: with_paused p r (tl rs)
              end
  end.
(** the history without the mute switches, and the results of the full history from the shortened one:
    0 while muted, the same otherwise ([m]: muted now) *)
Definition is_mute (o : Op) : bool := match kind o with KMute => true | _ => false end.
Definition unmuted (ops : list Op) : list Op := filter (fun o => negb (is_mute o)) ops.
Fixpoint with_mutes (m : bool) (ops : list Op) (rs : list (option f32)) : list (option f32) :=
  match ops with
  | [] => []
  | o :: r => match kind o with
              | KMute => None :: with_mutes (negb m) r rs
              | KProcess => (if m then Some f0 else hd None rs) :: with_mutes m r (tl rs)
              | _ => hd None rs :: with_mutes m r (tl rs)
              end
  end.
Definition flag_after (k : opkind) (f : bool) (ops : list Op) : bool :=
  fold_left (fun f o => match kind o, k with KPause, KPause | KMute, KMute => negb f | _, _ => f end) ops f.
End Switches.
Arguments unpaused {Op}. Arguments with_paused {Op}. Arguments unmuted {Op}. Arguments with_mutes {Op}. Arguments flag_after {Op}.
Arguments is_mute {Op}.

(** drivers: everything a user can do with a sound between two observations, including holding
    on to / letting go of a handle to one of its blocks *)
Inductive sop := SProcess (x : f32) | SPause | SMute | SSetIn (g : f64) | SSetOut (g : f64) | SRegister (id : Z) | SUnregister
               | SAddModifier (p : handle) | SExtend (l : list handle) | SShare (p : handle) | SUnshare (p : handle).
Definition sop_kind (o : sop) : opkind := match o with SProcess _ => KProcess | SPause => KPause | SMute => KMute | _ => KOther end.
Inductive cop := CProcess (x : f32) | CPause | CMute | CRegister (id : Z) | CUnregister
               | CAddBlock (p : handle) | CConnect (a b : nat) | CDisconnect (a b : nat) | CShare (p : handle) | CUnshare (p : handle).
Definition cop_kind (o : cop) : opkind := match o with CProcess _ => KProcess | CPause => KPause | CMute => KMute | _ => KOther end.
Section Drivers.
Variable U : Type. Variable up : U -> f32 -> U. Variable uo : U -> res (f32 * U).
Definition ss_step (st : simple * heap U) (o : sop) : res (option f32 * (simple * heap U)) :=
  let '(s, h) := st in
  match o with
  | SProcess x => do (y, h') <- ss_process U up uo s h x; Ok (Some y, (s, h'))
  | SPause => Ok (None, (ss_toggle_pause s, h))
  | SMute => Ok (None, (ss_toggle_mute s, h))
  | SSetIn g => Ok (None, (ss_set_input_gain s g, h))
  | SSetOut g => Ok (None, (ss_set_output_gain s g, h))
  | SRegister id => Ok (None, (ss_register s id, h))
  | SUnregister => Ok (None, (ss_unregister s, h))
  | SAddModifier p => Ok (None, (ss_add_modifier s p, h))
  | SExtend l => Ok (None, (ss_extend_modifiers s l, h))
  | SShare p => Ok (None, (s, arc_clone U h p))
  | SUnshare p => Ok (None, (s, arc_drop U h p))
  end.
Definition cs_step (st : complex * heap U) (o : cop) : res (option f32 * (complex * heap U)) :=
  let '(s, h) := st in
  match o with
  | CProcess x => do (y, h') <- cs_process U up uo s h x; Ok (Some y, (s, h'))
  | CPause => Ok (None, (cs_toggle_pause s, h))
  | CMute => Ok (None, (cs_toggle_mute s, h))
  | CRegister id => Ok (None, (cs_register s id, h))
  | CUnregister => Ok (None, (cs_unregister s, h))
  | CAddBlock p => Ok (None, (fst (cs_add_block s p), h))
  | CConnect a b => do s' <- cs_add_connection s a b; Ok (None, (s', h))
  | CDisconnect a b => do s' <- cs_remove_connection s a b; Ok (None, (s', h))
  | CShare p => Ok (None, (s, arc_clone U h p))
  | CUnshare p => Ok (None, (s, arc_drop U h p))
  end.
End Drivers.

(** the modifiers handed to a SimpleSound, in the order of the calls *)
Inductive madd := AddOne (p : handle) | AddAll (l : list handle).
Definition added (calls : list madd) : list handle := concat (map (fun c => match c with AddOne p => [p] | AddAll l => l end) calls).
Definition madd_step (s : simple) (c : madd) : simple := match c with AddOne p => ss_add_modifier s p | AddAll l => ss_extend_modifiers s l end.

(** ** graphs, read off the history of edits *)
(** [a -> b] is connected: the latest edit of that pair was a connect *)
Definition connected (ops : list cop) (a b : nat) : Prop :=
  exists before after, ops = before ++ CConnect a b :: after /\ ~ In (CDisconnect a b) after.
(** the input gain is block 0, the output gain block 1, added blocks follow *)
Definition blocks (ops : list cop) : nat :=
  2 + length (filter (fun o => match o with CAddBlock _ => true | _ => false end) ops).
Inductive leads (E : nat -> nat -> Prop) : nat -> nat -> Prop :=
| leads_refl a : leads E a a
| leads_step a b c : leads E a b -> E b c -> leads E a c.
Definition source (n : nat) (E : nat -> nat -> Prop) (s : nat) : Prop := s < n /\ forall a, ~ E a s.
Definition fed (n : nat) (E : nat -> nat -> Prop) (x : nat) : Prop := exists s, source n E s /\ leads E s x.
Definition one_input (E : nat -> nat -> Prop) : Prop := forall a a' b, E a b -> E a' b -> a = a'.
Definition acyclic (E : nat -> nat -> Prop) : Prop := exists rank : nat -> nat, forall a b, E a b -> rank a < rank b.
(** [x] stands before [y] in the list *)
Definition precedes (l : list nat) (x y : nat) : Prop := exists l1 l2 l3, l = l1 ++ x :: l2 ++ y :: l3.
Definition edits_order (o : cop) : bool := match o with CConnect _ _ | CDisconnect _ _ => true | _ => false end.
