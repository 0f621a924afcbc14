(** * VecReader, bin2str, float_equal *)
From Coq Require Import ZArith Bool Lia Arith Ascii String List Reals Lra.
From Flocq Require Import Core.Core IEEE754.BinarySingleNaN.
From Verif Require Import Model.Floats Model.Modifiers Model.Debug Spec.Text Proof.FloatFacts Proof.ChannelP.
Import ListNotations.
Local Open Scope nat_scope.

(** ** VecReader *)
Lemma vr_loop_spec rounds : forall r buf n, n <= length buf -> vr_pos r <= length (vr_vec r) -> length buf - n <= rounds ->
  let k := Nat.min (length buf - n) (length (vr_vec r) - vr_pos r) in
  vr_loop rounds r buf n = Ok (n + k, firstn n buf ++ firstn k (skipn (vr_pos r) (vr_vec r)) ++ skipn (n + k) buf, mkVR (vr_vec r) (vr_pos r + k)).
Proof.
  induction rounds as [|rounds IH]; intros [v pos] buf n Hn Hp Hr k; cbn [vr_loop vr_vec vr_pos] in *.
  - assert (n = length buf) by lia. subst n. rewrite Nat.ltb_irrefl. cbn [andb]. assert (k = 0) as -> by (unfold k; lia). rewrite !Nat.add_0_r, firstn_all, skipn_all. cbn. rewrite app_nil_r. reflexivity.
  - destruct (Nat.ltb_spec n (length buf)) as [L|L]; destruct (Nat.ltb_spec pos (length v)) as [L2|L2]; cbn [andb].
    2-4: assert (k = 0) as -> by (unfold k; lia); rewrite !Nat.add_0_r; cbn [firstn app]; rewrite firstn_skipn; reflexivity.
    destruct (nth_error v pos) as [b|] eqn:E; [|apply nth_error_None in E; lia]. cbn [unwrap bind]. unfold set_nth. destruct (Nat.ltb_spec n (length buf)); [|lia]. cbn [bind].
    assert (Lb : length (firstn n buf ++ b :: skipn (S n) buf) = length buf) by (rewrite app_length, firstn_length; cbn [length]; rewrite skipn_length; lia).
    rewrite IH by (cbn [vr_vec vr_pos]; rewrite ?Lb; lia). cbn [vr_vec vr_pos]. rewrite Lb.
    set (k' := Nat.min (length buf - S n) (length v - S pos)). assert (k = S k') as -> by (unfold k, k'; lia).
    replace (S n + k') with (n + S k') by lia. replace (S pos + k') with (pos + S k') by lia.
    f_equal. f_equal. f_equal.
    assert (Ef : firstn (S n) (firstn n buf ++ b :: skipn (S n) buf) = firstn n buf ++ [b]).
    { replace (S n) with (length (firstn n buf) + 1) at 1 by (rewrite firstn_length; lia). rewrite firstn_app_2. reflexivity. }
    assert (Es : forall j, skipn (n + S j) (firstn n buf ++ b :: skipn (S n) buf) = skipn (n + S j) buf).
    { intro j. rewrite skipn_app, skipn_all2 by (rewrite firstn_length; lia). rewrite firstn_length. replace (n + S j - Nat.min n (length buf)) with (S j) by lia.
      cbn [app skipn]. rewrite <- (firstn_skipn (S n) buf) at 2. rewrite skipn_app, firstn_length. rewrite (skipn_all2 (firstn (S n) buf)) by (rewrite firstn_length; lia).
      cbn [app]. f_equal. lia. }
    rewrite Ef, Es.
    assert (Ev : skipn pos v = b :: skipn (S pos) v).
    { clear -E. revert v E. induction pos as [|pos IHp]; intros [|a v] E; try discriminate; [injection E as ->; reflexivity|]. apply IHp. exact E. }
    rewrite Ev. cbn [firstn]. rewrite <- app_assoc. reflexivity.
Qed.
Lemma vr_read_spec v pos buf : pos <= length v ->
  let '(n, buf', rest') := read_spec (skipn pos v) buf in vr_read (mkVR v pos) buf = Ok (n, buf', mkVR v (pos + n)) /\ rest' = skipn (pos + n) v /\ pos + n <= length v.
Proof.
  intro Hp. unfold read_spec, vr_read. rewrite vr_loop_spec by (cbn [vr_pos vr_vec]; lia). cbn [vr_vec vr_pos firstn app plus]. rewrite skipn_length, Nat.sub_0_r.
  split; [reflexivity|]. split; [|lia]. clear Hp. generalize (Nat.min (length buf) (length v - pos)). intro k. revert v. induction pos as [|pos IH]; intro v; [reflexivity|]. destruct v; [destruct k; reflexivity|]. apply IH.
Qed.
Definition vr_step (r : vec_reader) (buf : list Z) : res ((nat * list Z) * vec_reader) := do (nb, r') <- vr_read r buf; Ok (nb, r').
Definition spec_step (rest : list Z) (buf : list Z) : res ((nat * list Z) * list Z) := let '(n, b, rest') := read_spec rest buf in Ok ((n, b), rest').
Lemma vr_history v bufs : forall pos, pos <= length v ->
  match run_res vr_step (mkVR v pos) bufs, run_res spec_step (skipn pos v) bufs with
  | Ok (ys, r), Ok (zs, rest) => ys = zs /\ vr_vec r = v /\ rest = skipn (vr_pos r) v /\ vr_pos r <= length v | _, _ => False end.
Proof.
  induction bufs as [|buf bufs IH]; intros pos Hp; cbn [run_res].
  - repeat split; auto.
  - pose proof (vr_read_spec v pos buf Hp) as H. unfold vr_step at 1, spec_step at 1. destruct (read_spec (skipn pos v) buf) as [[n b] rest'].
    destruct H as (-> & -> & Hn). cbn [bind]. specialize (IH _ Hn).
    destruct (run_res vr_step (mkVR v (pos + n)) bufs) as [[ys r]|]; destruct (run_res spec_step (skipn (pos + n) v) bufs) as [[zs rest]|]; cbn; try contradiction.
    destruct IH as (-> & A & B & C). auto.
Qed.
Definition delivered (y : nat * list Z) : list Z := firstn (fst y) (snd y).
Lemma firstn_plus {A} (a b : nat) : forall l : list A, firstn (a + b) l = firstn a l ++ firstn b (skipn a l).
Proof. induction a as [|a IH]; intro l; [reflexivity|]. destruct l; [destruct b; reflexivity|]. cbn. f_equal. apply IH. Qed.
Lemma spec_delivers bufs : forall rest ys rest', run_res spec_step rest bufs = Ok (ys, rest') ->
  concat (map delivered ys) = firstn (list_sum (map (@length Z) bufs)) rest.
Proof.
  induction bufs as [|buf bufs IH]; intros rest ys rest' E; cbn [run_res] in E.
  - injection E as <- <-. reflexivity.
  - unfold spec_step at 1, read_spec in E. cbn [bind] in E. set (n := Nat.min (length buf) (length rest)) in *.
    destruct (run_res spec_step (skipn n rest) bufs) as [[zs r]|] eqn:R; [|discriminate]. cbn in E. injection E as <- <-. cbn [map concat]. rewrite (IH _ _ _ R).
    unfold delivered. cbn [fst snd]. rewrite firstn_app, firstn_firstn, Nat.min_id, firstn_length. replace (n - Nat.min n (length rest)) with 0 by (unfold n; lia).
    cbn [firstn]. rewrite app_nil_r. destruct (Nat.le_gt_cases (length buf) (length rest)) as [L|L].
    + assert (n = length buf) as -> by (unfold n; lia). symmetry. apply firstn_plus.
    + assert (n = length rest) as -> by (unfold n; lia). rewrite firstn_all, skipn_all, firstn_nil, app_nil_r. symmetry. apply firstn_all2. cbn. lia.
Qed.

(** ** bin2str *)
Definition byte (b : Z) : Prop := (0 <= b < 256)%Z.
Lemma byte_all (P : Z -> bool) : forallb P (map Z.of_nat (seq 0 256)) = true -> forall b, byte b -> P b = true.
Proof.
  intros F b [B1 B2]. rewrite forallb_forall in F. apply F. apply in_map_iff. exists (Z.to_nat b). split; [lia|]. apply in_seq. lia.
Qed.
Definition reading_eqb (r : reading) (n : Z) : bool := match r with Number [] m => (m =? n)%Z | _ => false end.
Definition shift (done : list Z) (r : reading) : reading :=
  match r with Between x => Between (done ++ x) | Number x n => Number (done ++ x) n | Ended x n => Ended (done ++ x) n | Malformed => Malformed end.
Lemma read_shift1 done r c : read_char (shift done r) c = shift done (read_char r c).
Proof.
  destruct r as [x|x n|x n|]; cbn [shift read_char].
  - destruct (is_white c); [reflexivity|]. destruct (as_digit c); reflexivity.
  - destruct (is_white c); [reflexivity|]. destruct (is_comma c); [cbn; rewrite app_assoc; reflexivity|]. destruct (as_digit c); reflexivity.
  - destruct (is_white c); [reflexivity|]. destruct (is_comma c); [cbn; rewrite app_assoc; reflexivity|]. reflexivity.
  - reflexivity.
Qed.
Lemma read_shift done s : forall r, fold_left read_char s (shift done r) = shift done (fold_left read_char s r).
Proof. induction s as [|c s IH]; intro r; [reflexivity|]. cbn [fold_left]. rewrite read_shift1. apply IH. Qed.
Lemma read_dec done b : byte b -> fold_left read_char (dec b) (Between done) = Number done b.
Proof.
  intro B. assert (H := byte_all (fun b => reading_eqb (fold_left read_char (dec b) (Between [])) b) ltac:(vm_compute; reflexivity) b B). cbn beta in H.
  replace (Between done) with (shift done (Between [])) by (cbn; rewrite app_nil_r; reflexivity). rewrite read_shift.
  destruct (fold_left read_char (dec b) (Between [])) as [x|x n|x n|]; try discriminate. destruct x; [|discriminate]. cbn in H. apply Z.eqb_eq in H. subst. cbn. rewrite app_nil_r. reflexivity.
Qed.
Definition no_space (s : list ascii) : bool := forallb (fun c => negb (c =? " ")%char) s.
Definition no_newline (s : list ascii) : bool := forallb (fun c => negb (char_code c =? 10)%Z) s.
Lemma dec_facts b : byte b -> no_space (dec b) = true /\ no_newline (dec b) = true /\ length (dec b) <= 3.
Proof.
  intro B. assert (H := byte_all (fun b => no_space (dec b) && no_newline (dec b) && (length (dec b) <=? 3)) ltac:(vm_compute; reflexivity) b B). cbn beta in H.
  apply andb_true_iff in H. destruct H as [H H3]. apply andb_true_iff in H. destruct H as [H1 H2]. apply Nat.leb_le in H3. auto.
Qed.
Lemma position_app a b : no_space a = true -> position " "%char (a ++ " "%char :: b) = Some (length a).
Proof.
  induction a as [|c a IH]; intro N; [reflexivity|]. cbn in N. apply andb_true_iff in N. destruct N as [N1 N2]. apply negb_true_iff in N1. cbn. rewrite N1, IH by exact N2. reflexivity.
Qed.
Lemma no_space_rev a : no_space a = true -> no_space (rev a) = true.
Proof. unfold no_space. rewrite !forallb_forall. intros H c Hc. apply H. apply in_rev. exact Hc. Qed.
(** a step of the loop, the text so far being [s0] and a space *)
Definition wide (c : nat) (b : Z) : bool := 80 <? c + (length (dec b) + 2).
Lemma b2c_step_spec s0 c b : byte b ->
  b2c_step (s0 ++ [" "%char], c) b =
  if wide c b then Ok (s0 ++ chars (String (ascii_of_nat 10) "    ") ++ dec b ++ chars ", ", 4 + length (dec b) + 2)
  else Ok (s0 ++ [" "%char] ++ dec b ++ chars ", ", c + (length (dec b) + 2)).
Proof.
  intro B. destruct (dec_facts b B) as (NS & _ & _). unfold b2c_step, wide. rewrite app_length. change (length (chars ", ")) with 2.
  destruct (80 <? c + (length (dec b) + 2)); [|rewrite <- !app_assoc; reflexivity].
  assert (P : pop ((s0 ++ [" "%char]) ++ dec b ++ chars ", ") = s0 ++ " "%char :: dec b ++ [","%char]).
  { unfold pop. change (chars ", ") with ([","%char] ++ [" "%char]). rewrite !app_assoc, removelast_last, <- !app_assoc. reflexivity. }
  rewrite P.
  assert (R : rev (s0 ++ " "%char :: dec b ++ [","%char]) = (","%char :: rev (dec b)) ++ " "%char :: rev s0).
  { rewrite rev_app_distr. cbn [rev]. rewrite rev_app_distr. cbn. rewrite <- app_assoc. reflexivity. }
  rewrite R, position_app by (cbn; apply no_space_rev, NS). cbn [unwrap bind].
  assert (L : length (s0 ++ " "%char :: dec b ++ [","%char]) - 1 - length (","%char :: rev (dec b)) = length s0).
  { rewrite app_length. cbn. rewrite app_length, rev_length. cbn. lia. }
  rewrite L. unfold insert_str. rewrite firstn_app, firstn_all, Nat.sub_diag. cbn [firstn]. rewrite app_nil_r. rewrite skipn_app, skipn_all, Nat.sub_diag. cbn [skipn app].
  change (chars (String (ascii_of_nat 10) "    ")) with (chars (String (ascii_of_nat 10) "   ") ++ [" "%char]).
  change (chars ", ") with ([","%char] ++ [" "%char]). f_equal. f_equal.
  - rewrite <- !app_assoc. cbn [app]. rewrite <- app_assoc. reflexivity.
  - repeat (rewrite app_length; cbn [length]). change (length (chars (String (ascii_of_nat 10) "   "))) with 4. change (length (chars " ")) with 1. lia.
Qed.
Definition cur_line (s : list ascii) : list ascii := last (lines s) [].
Lemma lines_from_app s : forall cur t, no_newline t = true -> lines_from cur (s ++ t) = removelast (lines_from cur s) ++ [last (lines_from cur s) [] ++ t].
Proof.
  induction s as [|c s IH]; intros cur t N; cbn [app lines_from].
  - cbn. revert cur. induction t as [|c t IHt]; intro cur; cbn [lines_from]; [rewrite app_nil_r; reflexivity|].
    cbn in N. apply andb_true_iff in N. destruct N as [N1 N2]. apply negb_true_iff in N1. rewrite N1, IHt by exact N2. rewrite <- app_assoc. reflexivity.
  - destruct (char_code c =? 10)%Z; [|apply IH, N]. rewrite IH by exact N.
    assert (K : lines_from [] s <> []) by (clear; generalize (@nil ascii); induction s as [|c s IHs]; intro x; cbn; [discriminate|destruct (char_code c =? 10)%Z; [discriminate|apply IHs]]).
    destruct (lines_from [] s) as [|l ls]; [congruence|]. reflexivity.
Qed.
Lemma lines_from_nl s : forall cur t, lines_from cur (s ++ ascii_of_nat 10 :: t) = lines_from cur s ++ lines t.
Proof. induction s as [|c s IH]; intros cur t; cbn [app lines_from]; [reflexivity|]. destruct (char_code c =? 10)%Z; [cbn; f_equal|]; apply IH. Qed.
Lemma lines_plain s : no_newline s = true -> lines s = [s].
Proof. intro N. unfold lines. change s with ([] ++ s) at 1. rewrite lines_from_app by exact N. reflexivity. Qed.
Lemma no_newline_app a b : no_newline (a ++ b) = no_newline a && no_newline b.
Proof. apply forallb_app. Qed.
Lemma lines_nonempty s : lines s <> [].
Proof. unfold lines. generalize (@nil ascii). induction s as [|c s IHs]; intro x; cbn; [discriminate|destruct (char_code c =? 10)%Z; [discriminate|apply IHs]]. Qed.

(** the state of the loop after the bytes [x] *)
Definition binv (x : list Z) (st : list ascii * nat) : Prop :=
  (exists s0, fst st = s0 ++ [" "%char] /\ fold_left read_char s0 (Between []) = Between x) /\
  (x = [] \/ exists s1 pre b, x = pre ++ [b] /\ fst st = s1 ++ dec b ++ chars ", " /\ byte b /\ fold_left read_char s1 (Between []) = Between pre) /\
  Forall (fun l => length l <= 80) (removelast (lines (fst st))) /\ length (last (lines (fst st)) []) = snd st /\ snd st <= 80.
Lemma binv_start : binv [] (chars "    ", length (chars "    ")).
Proof.
  split; [|split; [|split; [|split]]].
  - exists (chars "   "). split; reflexivity.
  - left; reflexivity.
  - cbn. constructor.
  - reflexivity.
  - cbn. lia.
Qed.
Lemma binv_step x st b : byte b -> binv x st -> exists st', b2c_step st b = Ok st' /\ binv (x ++ [b]) st'.
Proof.
  intros B ((s0 & E & R) & _ & A & C & M). destruct st as [s c]. cbn [fst snd] in *. subst s.
  rewrite b2c_step_spec by exact B. destruct (dec_facts b B) as (_ & NN & Lb).
  assert (NT : no_newline (dec b ++ chars ", ") = true) by (rewrite no_newline_app, NN; reflexivity).
  assert (NT4 : no_newline (chars "    " ++ dec b ++ chars ", ") = true) by (rewrite no_newline_app, NT; reflexivity).
  assert (L4 : lines (s0 ++ chars (String (ascii_of_nat 10) "    ") ++ dec b ++ chars ", ") = lines s0 ++ [chars "    " ++ dec b ++ chars ", "]).
  { rewrite <- (lines_plain _ NT4). exact (lines_from_nl s0 [] (chars "    " ++ dec b ++ chars ", ")). }
  assert (R1 : forall s1, fold_left read_char s1 (Between []) = Between x -> fold_left read_char (s1 ++ dec b ++ [","%char]) (Between []) = Between (x ++ [b])).
  { intros s1 E. rewrite !fold_left_app, E, read_dec by exact B. reflexivity. }
  destruct (wide c b) eqn:W.
  - eexists. split; [reflexivity|]. split; [|split; [|split; [|split]]]; cbn [fst snd].
    + exists ((s0 ++ chars (String (ascii_of_nat 10) "    ")) ++ dec b ++ [","%char]). split; [rewrite <- !app_assoc; reflexivity|]. apply R1. rewrite fold_left_app, R. reflexivity.
    + right. exists (s0 ++ chars (String (ascii_of_nat 10) "    ")), x, b. split; [reflexivity|]. split; [rewrite <- !app_assoc; reflexivity|]. split; [exact B|]. rewrite fold_left_app, R. reflexivity.
    + rewrite L4. rewrite removelast_last.
      unfold lines in A, C. rewrite lines_from_app in A, C by reflexivity. rewrite removelast_last in A. rewrite last_last in C. rewrite app_length in C. cbn in C.
      rewrite (app_removelast_last [] (lines_nonempty s0)). apply Forall_app. split; [exact A|]. constructor; [|constructor]. unfold lines. lia.
    + rewrite L4. rewrite last_last, !app_length. cbn. lia.
    + lia.
  - apply Nat.ltb_ge in W. eexists. split; [reflexivity|]. split; [|split; [|split; [|split]]]; cbn [fst snd].
    + exists ((s0 ++ [" "%char]) ++ dec b ++ [","%char]). split; [rewrite <- !app_assoc; reflexivity|]. apply R1. rewrite fold_left_app, R. reflexivity.
    + right. exists (s0 ++ [" "%char]), x, b. split; [reflexivity|]. split; [rewrite <- !app_assoc; reflexivity|]. split; [exact B|]. rewrite fold_left_app, R. reflexivity.
    + rewrite app_assoc. unfold lines. rewrite lines_from_app by exact NT. rewrite removelast_last. exact A.
    + rewrite app_assoc. unfold lines. rewrite lines_from_app by exact NT. rewrite last_last, app_length. unfold lines in C. rewrite C, app_length. cbn. lia.
    + exact W.
Qed.
Lemma binv_loop y : Forall byte y -> forall x st, binv x st -> exists st', b2c_loop st y = Ok st' /\ binv (x ++ y) st'.
Proof.
  induction y as [|b y IH]; intros F x st I; cbn.
  - exists st. rewrite app_nil_r. auto.
  - inversion F; subst. destruct (binv_step x st b H1 I) as (st1 & -> & I1). cbn [bind]. destruct (IH H2 _ _ I1) as (st2 & E & I2). exists st2. split; [exact E|]. rewrite <- app_assoc in I2. exact I2.
Qed.
Lemma pop2 s a b : pop (pop (s ++ [a; b])) = s.
Proof. unfold pop. change [a; b] with ([a] ++ [b]). rewrite app_assoc, !removelast_last. reflexivity. Qed.
Lemma lines_pop2 s a b : Forall (fun l => length l <= 80) (lines (s ++ [a; b])) -> Forall (fun l => length l <= 80) (lines s).
Proof.
  assert (G : forall cur, Forall (fun l => length l <= 80) (lines_from cur (s ++ [a; b])) -> Forall (fun l => length l <= 80) (lines_from cur s)); [|exact (G [])].
  induction s as [|c s IH]; intros cur; cbn [app lines_from].
  - cbn. destruct (char_code a =? 10)%Z; intro H; [inversion H; subst; constructor; [assumption|constructor]|].
    destruct (char_code b =? 10)%Z; inversion H as [|? ? H1 H2]; subst; constructor; try constructor; rewrite ?app_length in H1; cbn in H1; lia.
  - destruct (char_code c =? 10)%Z; [|apply IH]. intro H. inversion H; subst. constructor; [assumption|]. apply IH. assumption.
Qed.
Lemma bin2str_correct x : Forall byte x -> exists s, convert_file x = Ok s /\ read_text s = Some x /\ Forall (fun l => length l <= 80) (lines s).
Proof.
  intro F. destruct (binv_loop x F [] _ binv_start) as ([s c] & E & I). cbn [app] in I.
  unfold convert_file, byte2char. rewrite E. cbn [bind]. eexists. split; [reflexivity|]. destruct I as (_ & J & A & C & M). cbn [fst snd] in *.
  assert (W : Forall (fun l => length l <= 80) (lines s)).
  { rewrite (app_removelast_last [] (lines_nonempty s)). apply Forall_app. split; [exact A|]. constructor; [lia|constructor]. }
  destruct J as [->|(s1 & pre & b & -> & -> & Bb & R)].
  - cbn in E. injection E as <- <-. split; [reflexivity|]. cbn. repeat constructor.
  - change (chars ", ") with [","%char; " "%char] in *. rewrite app_assoc in *. rewrite pop2. split.
    + unfold read_text. rewrite fold_left_app, R, read_dec by exact Bb. reflexivity.
    + eapply lines_pop2, W.
Qed.

(** ** float_equal *)
Section FloatEqual.
Context {prec emax : Z} {Hp : Prec_gt_0 prec} {He : Prec_lt_emax prec emax}.
Notation fl := (binary_float prec emax).
Notation fexp := (SpecFloat.fexp prec emax).
Notation rnd := (round radix2 fexp ZnearestE).
Local Open Scope R_scope.
Lemma fsub_cases (a b : fl) : is_finite a = true -> is_finite b = true ->
  (is_finite (fsub a b) = true /\ B2R (fsub a b) = rnd (B2R a - B2R b)) \/
  (exists s, fsub a b = B754_infinity s /\ bpow radix2 emax <= Rabs (rnd (B2R a - B2R b))).
Proof.
  intros Fa Fb. unfold fsub. generalize (Bminus_correct prec emax Hp He mode_NE a b Fa Fb). cbn [round_mode].
  destruct (Rlt_bool_spec (Rabs (rnd (B2R a - B2R b))) (bpow radix2 emax)) as [L|L].
  - intros (E & F & _). left. auto.
  - intros (E & _). right. unfold binary_overflow in E. cbn in E. destruct (Bminus mode_NE a b) as [s|s| |s m e he]; cbn in E; try discriminate. exists s. auto.
Qed.
Lemma float_equal_spec (a b e : fl) : is_finite a = true -> is_finite b = true -> is_finite e = true ->
  (float_equal a b e = true <-> Rabs (rnd (B2R a - B2R b)) < B2R e).
Proof.
  intros Fa Fb Fe. unfold float_equal. destruct (fsub_cases a b Fa Fb) as [[F E]|(s & E & L)].
  - rewrite flt_true by (rewrite ?fabs_fin; assumption). rewrite fabs_R, E. reflexivity.
  - rewrite E. split; [|intro H; exfalso; pose proof (abs_B2R_lt e); pose proof (Rle_abs (B2R e)); lra].
    intro H. exfalso. unfold flt, fabs, Bltb in H. destruct e; discriminate.
Qed.
Lemma float_equal_nan (a b e : fl) : is_nan a = true \/ is_nan b = true \/ is_nan e = true -> float_equal a b e = false.
Proof.
  unfold float_equal, flt, fsub, fabs, Bltb. intros [H|[H|H]].
  - destruct a; try discriminate. destruct b; reflexivity.
  - destruct b; try discriminate. destruct a; reflexivity.
  - destruct e; try discriminate. destruct (Babs (Bminus mode_NE a b)) as [s|[|]| |[|] m x hx]; reflexivity.
Qed.
Lemma fabs_sub_sym (a b : fl) : fabs (fsub a b) = fabs (fsub b a).
Proof.
  destruct (is_finite a) eqn:Fa; destruct (is_finite b) eqn:Fb.
  - destruct (fsub_cases a b Fa Fb) as [[F1 E1]|(s1 & E1 & L1)]; destruct (fsub_cases b a Fb Fa) as [[F2 E2]|(s2 & E2 & L2)].
    + apply B2R_Bsign_inj; rewrite ?fabs_fin; try assumption.
      * rewrite !fabs_R, E1, E2. replace (B2R b - B2R a) with (- (B2R a - B2R b)) by ring. rewrite rnd_opp, Rabs_Ropp. reflexivity.
      * unfold fabs. rewrite !Bsign_Babs by (destruct (fsub _ _); try discriminate; reflexivity). reflexivity.
    + exfalso. pose proof (abs_B2R_lt (fsub a b)) as L. rewrite E1 in L. replace (B2R b - B2R a) with (- (B2R a - B2R b)) in L2 by ring. rewrite rnd_opp, Rabs_Ropp in L2. lra.
    + exfalso. pose proof (abs_B2R_lt (fsub b a)) as L. rewrite E2 in L. replace (B2R b - B2R a) with (- (B2R a - B2R b)) in L by ring. rewrite rnd_opp, Rabs_Ropp in L. lra.
    + rewrite E1, E2. reflexivity.
  - destruct a; try discriminate; destruct b; try discriminate; reflexivity.
  - destruct a; try discriminate; destruct b; try discriminate; reflexivity.
  - destruct a as [|[|]| |]; try discriminate; destruct b as [|[|]| |]; try discriminate; reflexivity.
Qed.
Lemma float_equal_sym (a b e : fl) : float_equal a b e = float_equal b a e.
Proof. unfold float_equal. rewrite fabs_sub_sym. reflexivity. Qed.
(** in exact terms: it never accepts a difference of e or more, and never rejects one at most the float below e *)
Lemma float_equal_sound (a b e : fl) : is_finite a = true -> is_finite b = true -> is_finite e = true ->
  float_equal a b e = true -> Rabs (B2R a - B2R b) < B2R e.
Proof.
  intros Fa Fb Fe H. apply float_equal_spec in H; try assumption. apply Rnot_le_lt. intro L. revert H. apply Rle_not_lt.
  unfold Rabs in L. destruct (Rcase_abs (B2R a - B2R b)) as [N|N].
  - apply Rle_trans with (rnd (- (B2R a - B2R b))).
    + apply rnd_ge_fmt; [apply fmt_B2R|exact L].
    + rewrite rnd_opp. rewrite <- Rabs_Ropp. apply Rle_abs.
  - apply Rle_trans with (rnd (B2R a - B2R b)); [apply rnd_ge_fmt; [apply fmt_B2R|exact L]|apply Rle_abs].
Qed.
Lemma float_equal_complete (a b e d : fl) : is_finite a = true -> is_finite b = true -> is_finite e = true ->
  B2R d < B2R e -> Rabs (B2R a - B2R b) <= B2R d -> float_equal a b e = true.
Proof.
  intros Fa Fb Fe D L. apply float_equal_spec; try assumption. apply Rle_lt_trans with (B2R d); [|exact D]. apply rnd_abs_le; [apply fmt_B2R|exact L].
Qed.
Lemma float_equal_refl (a e : fl) : is_finite a = true -> is_finite e = true -> (float_equal a a e = true <-> 0 < B2R e).
Proof. intros Fa Fe. rewrite float_equal_spec by assumption. rewrite Rminus_diag_eq, rnd_0, Rabs_R0 by reflexivity. reflexivity. Qed.
Lemma float_equal_inf (e : fl) s : float_equal (B754_infinity s) (B754_infinity s) e = false.
Proof. destruct s; reflexivity. Qed.
End FloatEqual.
