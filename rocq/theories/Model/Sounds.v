(** * Blocks and sounds: /repo/src/sounds/{mod,standard_block,simple_sound,complex_sound}.rs

    [Arc] handles are indices into a heap of reference-counted cells, because [Arc::get_mut] answers
    [Some] exactly when the strong count is 1 (no [Weak] handle is ever made).  User supplied blocks,
    generators, modifiers and interactors are arbitrary types with arbitrary step functions. *)

From Coq Require Import ZArith List Bool.
From Flocq Require Import IEEE754.BinarySingleNaN.
From Verif Require Import Model.Floats Model.Generators Model.Modifiers.
Import ListNotations.

(** ** StandardBlock: standard_block.rs:50-55.  ([get_g_mut], [get_m_mut], which can swap a part for another: Model/Parts.v.) *)
Section Standard.
Variables G M I : Type.
Variable g_process : G -> res (f32 * G).                    (* Generator::process *)
Variable m_process : M -> f32 -> res (f32 * M).             (* Modifier::process *)
Variable i_call : I -> f32 -> f32 -> res (f32 * I).         (* the interactor closure *)
(** each part with the strong count of its [Arc] *)
Record stdblock := mkSB { sb_g : G; sb_gc : Z; sb_m : M; sb_mc : Z; sb_i : I; sb_ic : Z; sb_input : f32 }.
(** standard_block.rs:72-82; [ic]: how many handles to the interactor exist once it is moved in *)
Definition sb_new (g : G) (m : M) (i : I) (ic : Z) : stdblock := mkSB g 1 m 1 i ic f0.
(** standard_block.rs:186-188 *)
Definition sb_prime (b : stdblock) (x : f32) : stdblock :=
  mkSB (sb_g b) (sb_gc b) (sb_m b) (sb_mc b) (sb_i b) (sb_ic b) (fadd (sb_input b) x).
(** [Arc::get_mut(..).unwrap()] *)
Definition get_mut_unwrap {A} (count : Z) (a : A) : res A := if (count =? 1)%Z then Ok a else Panic.
(** standard_block.rs:190-199 *)
Definition sb_process (b : stdblock) : res (f32 * stdblock) :=
  do i <- get_mut_unwrap (sb_ic b) (sb_i b);
  do g <- get_mut_unwrap (sb_gc b) (sb_g b);
  do (ge, g') <- g_process g;
  do m <- get_mut_unwrap (sb_mc b) (sb_m b);
  do (mo, m') <- m_process m (sb_input b);
  do (y, i') <- i_call i ge mo;
  Ok (y, mkSB g' (sb_gc b) m' (sb_mc b) i' (sb_ic b) f0).
(** the user cloning / dropping a handle obtained from [get_g], [get_m] (standard_block.rs:159-182)
    or kept to the interactor *)
Inductive part := PartG | PartM | PartI.
Definition sb_count (d : Z) (p : part) (b : stdblock) : stdblock :=
  match p with
  | PartG => mkSB (sb_g b) (sb_gc b + d) (sb_m b) (sb_mc b) (sb_i b) (sb_ic b) (sb_input b)
  | PartM => mkSB (sb_g b) (sb_gc b) (sb_m b) (sb_mc b + d) (sb_i b) (sb_ic b) (sb_input b)
  | PartI => mkSB (sb_g b) (sb_gc b) (sb_m b) (sb_mc b) (sb_i b) (sb_ic b + d) (sb_input b)
  end.
End Standard.
Arguments mkSB {G M I}. Arguments sb_g {G M I}. Arguments sb_gc {G M I}. Arguments sb_m {G M I}. Arguments sb_mc {G M I}.
Arguments sb_i {G M I}. Arguments sb_ic {G M I}. Arguments sb_input {G M I}. Arguments sb_new {G M I}. Arguments sb_prime {G M I}.
Arguments sb_process {G M I}. Arguments sb_count {G M I}.

(** the three interactors, standard_block.rs:136-154 *)
Definition default_interactor (u : unit) (ge mo : f32) : res (f32 * unit) := Ok (fmul ge mo, u).
Definition generator_passthrough (u : unit) (ge mo : f32) : res (f32 * unit) := Ok (ge, u).
Definition modifier_passthrough (u : unit) (ge mo : f32) : res (f32 * unit) := Ok (mo, u).
(** standard_block.rs:96-107 and 121-132 *)
Definition from_generator {G} (g : G) : stdblock G unit unit := sb_new g tt tt 1.
Definition from_modifier {M} (m : M) : stdblock unit M unit := sb_new tt m tt 1.
(** the modifier-only block [StandardBlock::from_modifier(Gain::new(gain))] used by ComplexSound *)
Definition gainblock := stdblock unit f32 unit.
Definition gain_block (gain : f32) : gainblock := from_modifier gain.
Definition gb_process (b : gainblock) : res (f32 * gainblock) :=
  sb_process (fun u => Ok (zero_process u)) (fun a x => Ok (gain_process a x)) modifier_passthrough b.

(** ** the heap of [Arc<dyn Block>] *)
Section Sounds.
Variable U : Type.                                           (* user block *)
Variable u_prime : U -> f32 -> U.                            (* Block::prime_input *)
Variable u_process : U -> res (f32 * U).                     (* Block::process *)

Inductive block := Gainer (b : gainblock) | User (u : U).
Definition b_prime (b : block) (x : f32) : block :=
  match b with Gainer b => Gainer (sb_prime b x) | User u => User (u_prime u x) end.
Definition b_process (b : block) : res (f32 * block) :=
  match b with
  | Gainer b => do (y, b') <- gb_process b; Ok (y, Gainer b')
  | User u => do (y, u') <- u_process u; Ok (y, User u')
  end.

Definition handle := nat.
Record cell := mkCell { c_count : Z; c_block : block }.
Definition heap := list cell.
(** [Arc::new] *)
Definition alloc (h : heap) (b : block) : heap * handle := (h ++ [mkCell 1 b], length h).
Fixpoint upd {A} (l : list A) (n : nat) (f : A -> A) : list A :=
  match l, n with [], _ => [] | a :: r, O => f a :: r | a :: r, S n => a :: upd r n f end.
Definition incr (d : Z) (h : heap) (p : handle) : heap := upd h p (fun c => mkCell (c_count c + d) (c_block c)).
Definition arc_clone (h : heap) (p : handle) : heap := incr 1 h p.
Definition arc_drop (h : heap) (p : handle) : heap := incr (-1) h p.
(** [Arc::get_mut]: the block, if the handle is the only one *)
Definition get_mut (h : heap) (p : handle) : option block :=
  match nth_error h p with Some c => if (c_count c =? 1)%Z then Some (c_block c) else None | None => None end.
Definition put (h : heap) (p : handle) (b : block) : heap := upd h p (fun c => mkCell (c_count c) b).

(** ** SimpleSound: simple_sound.rs:21-29 *)
Record simple := mkSimple { ss_gen : handle; ss_mods : list handle; ss_in : f32; ss_out : f32;
                            ss_id : option Z; ss_muted : bool; ss_paused : bool }.
Definition ss_new (input_gain output_gain : f64) (g : handle) : simple :=        (* simple_sound.rs:41-51 *)
  mkSimple g [] (to32 input_gain) (to32 output_gain) None false false.
Definition ss_add_modifier (s : simple) (m : handle) : simple :=                 (* simple_sound.rs:57-61 *)
  mkSimple (ss_gen s) (ss_mods s ++ [m]) (ss_in s) (ss_out s) (ss_id s) (ss_muted s) (ss_paused s).
Definition ss_extend_modifiers (s : simple) (l : list handle) : simple :=        (* simple_sound.rs:67-69 *)
  mkSimple (ss_gen s) (ss_mods s ++ l) (ss_in s) (ss_out s) (ss_id s) (ss_muted s) (ss_paused s).
Definition ss_get_input_gain (s : simple) : f64 := to64 (ss_in s).               (* simple_sound.rs:72-79 *)
Definition ss_get_output_gain (s : simple) : f64 := to64 (ss_out s).
Definition ss_set_input_gain (s : simple) (g : f64) : simple :=                  (* simple_sound.rs:82-89 *)
  mkSimple (ss_gen s) (ss_mods s) (to32 g) (ss_out s) (ss_id s) (ss_muted s) (ss_paused s).
Definition ss_set_output_gain (s : simple) (g : f64) : simple :=
  mkSimple (ss_gen s) (ss_mods s) (ss_in s) (to32 g) (ss_id s) (ss_muted s) (ss_paused s).
Definition ss_toggle_pause (s : simple) : simple :=                              (* simple_sound.rs:93-95 *)
  mkSimple (ss_gen s) (ss_mods s) (ss_in s) (ss_out s) (ss_id s) (ss_muted s) (negb (ss_paused s)).
Definition ss_toggle_mute (s : simple) : simple :=                               (* simple_sound.rs:101-103 *)
  mkSimple (ss_gen s) (ss_mods s) (ss_in s) (ss_out s) (ss_id s) (negb (ss_muted s)) (ss_paused s).
Definition ss_register (s : simple) (id : Z) : simple :=                         (* simple_sound.rs:109-111 *)
  mkSimple (ss_gen s) (ss_mods s) (ss_in s) (ss_out s) (Some id) (ss_muted s) (ss_paused s).
Definition ss_unregister (s : simple) : simple :=                                (* simple_sound.rs:113-115 *)
  mkSimple (ss_gen s) (ss_mods s) (ss_in s) (ss_out s) None (ss_muted s) (ss_paused s).
(** simple_sound.rs:129-134 *)
Fixpoint ss_chain (h : heap) (ms : list handle) (out : f32) : res (f32 * heap) :=
  match ms with
  | [] => Ok (out, h)
  | m :: r =>
    match get_mut h m with
    | Some b => do (y, b') <- b_process (b_prime b out); ss_chain (put h m b') r y
    | None => ss_chain h r out
    end
  end.
(** simple_sound.rs:117-141 *)
Definition ss_process (s : simple) (h : heap) (input : f32) : res (f32 * heap) :=
  if ss_paused s then Ok (f0, h) else
  do (out, h1) <- match get_mut h (ss_gen s) with
                  | Some b => do (y, b') <- b_process (b_prime b (fmul input (ss_in s))); Ok (y, put h (ss_gen s) b')
                  | None => Ok (f0, h)
                  end;
  do (out, h2) <- ss_chain h1 (ss_mods s) out;
  Ok (if ss_muted s then f0 else fmul out (ss_out s), h2).
(** derived [Clone], simple_sound.rs:20: all handles are cloned; and dropping a SimpleSound *)
Definition ss_handles (s : simple) : list handle := ss_gen s :: ss_mods s.
Definition ss_clone (s : simple) (h : heap) : simple * heap := (s, fold_left arc_clone (ss_handles s) h).
Definition ss_drop (s : simple) (h : heap) : heap := fold_left arc_drop (ss_handles s) h.

(** ** the part of petgraph's [DiGraph] that is used: node weights in index order, edges newest first.
    [neighbors a] walks the outgoing edges of [a], most recently added first; [externals(Incoming)]
    lists the nodes without incoming edge in index order; removing an edge keeps the order of the others. *)
Record graph := mkGraph { g_nodes : list handle; g_edges : list (nat * nat) }.
Definition g_add_node (g : graph) (p : handle) : graph * nat := (mkGraph (g_nodes g ++ [p]) (g_edges g), length (g_nodes g)).
Definition is_edge (a b : nat) (e : nat * nat) : bool := ((fst e =? a) && (snd e =? b))%nat.
Definition g_find_edge (g : graph) (a b : nat) : bool := existsb (is_edge a b) (g_edges g).
Definition g_update_edge (g : graph) (a b : nat) : res graph :=
  if g_find_edge g a b then Ok g
  else if ((a <? length (g_nodes g)) && (b <? length (g_nodes g)))%nat then Ok (mkGraph (g_nodes g) ((a, b) :: g_edges g))
  else Panic.                                                (* add_edge: node indices out of bounds *)
Fixpoint remove_first {A} (f : A -> bool) (l : list A) : list A :=
  match l with [] => [] | a :: r => if f a then r else a :: remove_first f r end.
Definition g_remove_edge (g : graph) (a b : nat) : graph := mkGraph (g_nodes g) (remove_first (is_edge a b) (g_edges g)).
Definition neighbors (g : graph) (a : nat) : list nat := map snd (filter (fun e => fst e =? a)%nat (g_edges g)).
Definition externals_in (g : graph) : list nat :=
  filter (fun n => negb (existsb (fun e => snd e =? n)%nat (g_edges g))) (seq 0 (length (g_nodes g))).

(** ** ComplexSound: complex_sound.rs:37-45 *)
Record complex := mkComplex { cs_graph : graph; cs_order : list nat; cs_ig : nat; cs_og : nat;
                              cs_id : option Z; cs_muted : bool; cs_paused : bool }.
Definition cs_new (h : heap) (input_gain output_gain : f64) : complex * heap :=  (* complex_sound.rs:52-78 *)
  let '(h1, p) := alloc h (Gainer (gain_block (to32 input_gain))) in
  let '(g1, ig) := g_add_node (mkGraph [] []) p in
  let '(h2, q) := alloc h1 (Gainer (gain_block (to32 output_gain))) in
  let '(g2, og) := g_add_node g1 q in
  (mkComplex g2 [] ig og None false false, h2).
Definition cs_add_block (s : complex) (p : handle) : complex * nat :=            (* complex_sound.rs:104-106 *)
  let '(g, n) := g_add_node (cs_graph s) p in
  (mkComplex g (cs_order s) (cs_ig s) (cs_og s) (cs_id s) (cs_muted s) (cs_paused s), n).

(** complex_sound.rs:168-178: keep positions [0..w], drop later copies of the element at [w] *)
Definition remove_dups (v : list nat) (w : nat) : list nat :=
  match nth_error v w with
  | Some x => firstn (S w) v ++ filter (fun y => negb (y =? x)%nat) (skipn (S w) v)
  | None => v                                                (* not reached: w < v.len() *)
  end.
(** complex_sound.rs:147-151 *)
Definition dedup_below (v : list nat) (i : nat) : list nat := fold_left remove_dups (seq 0 i) v.
(** complex_sound.rs:142-154; [None]: out of fuel *)
Fixpoint order_loop (fuel : nat) (g : graph) (i : nat) (v : list nat) : option (list nat) :=
  match fuel with
  | O => None
  | S k => match nth_error v i with
           | None => Some v
           | Some x => order_loop k g (S i) (dedup_below (v ++ neighbors g x) i)
           end
  end.
(** complex_sound.rs:138-163 *)
Definition order_fuel (g : graph) : nat := length (g_nodes g) + 3.
Definition process_order (g : graph) (ig og : nat) : option (list nat) :=
  match order_loop (order_fuel g) g 0 (externals_in g) with
  | Some v => Some (ig :: filter (fun e => negb (e =? ig)%nat && negb (e =? og)%nat) v ++ [og])
  | None => None
  end.
Definition cs_with_graph (s : complex) (g : graph) : res complex :=
  match process_order g (cs_ig s) (cs_og s) with
  | Some o => Ok (mkComplex g o (cs_ig s) (cs_og s) (cs_id s) (cs_muted s) (cs_paused s))
  | None => Panic                                            (* excluded: the loop always ends *)
  end.
Definition cs_add_connection (s : complex) (from to : nat) : res complex :=      (* complex_sound.rs:111-115 *)
  do g <- g_update_edge (cs_graph s) from to; cs_with_graph s g.
Definition cs_remove_connection (s : complex) (from to : nat) : res complex :=   (* complex_sound.rs:120-126 *)
  cs_with_graph s (g_remove_edge (cs_graph s) from to).
Definition cs_toggle_pause (s : complex) : complex :=                            (* complex_sound.rs:182-184 *)
  mkComplex (cs_graph s) (cs_order s) (cs_ig s) (cs_og s) (cs_id s) (cs_muted s) (negb (cs_paused s)).
Definition cs_toggle_mute (s : complex) : complex :=                             (* complex_sound.rs:190-192 *)
  mkComplex (cs_graph s) (cs_order s) (cs_ig s) (cs_og s) (cs_id s) (negb (cs_muted s)) (cs_paused s).
Definition cs_register (s : complex) (id : Z) : complex :=                       (* complex_sound.rs:198-200 *)
  mkComplex (cs_graph s) (cs_order s) (cs_ig s) (cs_og s) (Some id) (cs_muted s) (cs_paused s).
Definition cs_unregister (s : complex) : complex :=                              (* complex_sound.rs:202-204 *)
  mkComplex (cs_graph s) (cs_order s) (cs_ig s) (cs_og s) None (cs_muted s) (cs_paused s).

(** [BlockSP::get_mut(graph.node_weight_mut(n).unwrap()).unwrap()] *)
Definition node_mut (g : graph) (h : heap) (n : nat) : res (handle * block) :=
  do p <- unwrap (nth_error (g_nodes g) n); do b <- unwrap (get_mut h p); Ok (p, b).
Definition prime_node (g : graph) (h : heap) (n : nat) (x : f32) : res heap :=
  do (p, b) <- node_mut g h n; Ok (put h p (b_prime b x)).
Fixpoint prime_nodes (g : graph) (h : heap) (ns : list nat) (x : f32) : res heap := (* complex_sound.rs:221-226 *)
  match ns with [] => Ok h | n :: r => do h1 <- prime_node g h n x; prime_nodes g h1 r x end.
Fixpoint cs_run (g : graph) (h : heap) (order : list nat) (out : f32) : res (f32 * heap) := (* complex_sound.rs:217-227 *)
  match order with
  | [] => Ok (out, h)
  | n :: r =>
    do (p, b) <- node_mut g h n;
    do (y, b') <- b_process b;
    do h1 <- prime_nodes g (put h p b') (neighbors g n) y;
    cs_run g h1 r y
  end.
Definition cs_process (s : complex) (h : heap) (input : f32) : res (f32 * heap) := (* complex_sound.rs:206-234 *)
  if cs_paused s then Ok (f0, h) else
  do h1 <- prime_node (cs_graph s) h (cs_ig s) input;
  do (out, h2) <- cs_run (cs_graph s) h1 (cs_order s) f0;
  Ok (if cs_muted s then f0 else out, h2).
(** derived [Clone], complex_sound.rs:36 *)
Definition cs_clone (s : complex) (h : heap) : complex * heap := (s, fold_left arc_clone (g_nodes (cs_graph s)) h).
Definition cs_drop (s : complex) (h : heap) : heap := fold_left arc_drop (g_nodes (cs_graph s)) h.
End Sounds.
