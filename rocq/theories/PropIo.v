(** * PropIo: C28, printing arrays. *)

From Coq Require Import ZArith Ascii String List Bool Lia.
From Verif Require Import Base Spec Desc Slice SliceSpec Lemmas DescProofs SliceProofs ViewProofs RunProofs ViewThms ExprSpec ExprProofs ExprThms.
From Verif Require Import Io IoSpec IoProofs IoText.
Import ListNotations.
Open Scope Z_scope.

(** Element of an array with elements [vals] in column-major order, as text. *)
Definition elem_text {V} (show : V -> text) (shape : list Z) (vals : list V) (ix : list Z) : text :=
  match nth_error vals (Z.to_nat (cm_pos shape ix)) with Some v => show v | None => [] end.

Lemma mapO_get {V} (cells : list V) ps : Forall (fun p => 0 <= p < Z.of_nat (List.length cells)) ps ->
  exists vals, mapO (get cells) ps = Ok vals /\ List.length vals = List.length ps /\
    forall k p, nth_error ps k = Some p -> exists v, nth_error vals k = Some v /\ get cells p = Ok v.
Proof.
  induction ps as [|p ps IH]; intros F.
  - exists []. repeat split; auto. intros [|k] p; discriminate.
  - inversion F as [|? ? Hp Fps]; subst. destruct (get_ok cells p Hp) as (v & E). destruct (IH Fps) as (vals & Ev & L & N).
    exists (v :: vals). cbn [mapO]. rewrite E, Ev. cbn [bindO]. split; auto. split; [simpl; auto|].
    intros [|k] q; simpl; [intros [= <-]; eauto|apply N].
Qed.

Lemma print_reachable {V} (show : V -> text) cells chk es steps :
  good_shape es -> ok_steps (afull es) steps -> Z.of_nat (List.length cells) = zprod es ->
  exists fuel0, forall fuel, (fuel0 <= fuel)%nat -> exists s shape ps vals,
    foldO (run chk fuel) steps (SRef 0 es) = Ok s /\ dims s = Some shape /\
    aselects (afull es) steps = (shape, ps) /\ mapO (get cells) ps = Ok vals /\
    forall fmts, fmts <> [] ->
      aos_print show cells chk fuel (List.length shape) fmts s
      = Ok (nested (formats_for fmts (List.length shape)) shape (elem_text show shape vals)).
Proof.
  intros G H L.
  exists (Nat.max (steps_fuel (afull es) steps) (S (Z.to_nat (zprod (fst (aselects (afull es) steps)))))). intros fuel Hf.
  destruct (reachable_aux chk (zprod es) steps fuel (SRef 0 es) (afull es) (sinv_full es G)) as [s [E [I [F N]]]]; auto; try lia.
  { cbn. apply Forall_forall. intros p Hp. apply in_iota in Hp. exact Hp. }
  destruct (aselects (afull es) steps) as [shape ps] eqn:A. cbn [fst snd] in *. rewrite <- L in F.
  destruct (mapO_get cells ps F) as (vals & Ev & Lv & Nv).
  destruct (sinv_good _ _ I) as [(Gn & Gp & GM) Glen]. cbn [fst snd] in *.
  exists s, shape, ps, vals. split; auto. split; [apply (sinv_dims _ _ I)|]. split; auto. split; auto.
  intros fmts Hfm. rewrite (aos_print_ok show cells chk fuel fmts Hfm (List.length shape) s (shape, ps) I); auto; [|cbn [fst]; lia].
  cbn [fst]. f_equal. apply nested_ext; [apply formats_for_length|]. intros ix Hix. unfold cell_text, elem_text, aview_at. cbn [fst snd].
  pose proof (cm_pos_range _ _ Hix) as R.
  destruct (nth_error ps (Z.to_nat (cm_pos shape ix))) as [p|] eqn:Ep.
  - destruct (Nv _ _ Ep) as (v & E1 & E2). rewrite E1. rewrite (nth_error_nth _ _ _ Ep), E2. reflexivity.
  - apply nth_error_None in Ep. lia.
Qed.

(** ** C28 *)

(** Injectivity of the text as such. *)
Lemma braces_inj : forall shape shape' f f',
  all_pos shape -> all_pos shape' ->
  (forall ix, in_range shape ix -> f ix <> [] /\ free_of ["{"; "}"; " "]%char (f ix)) ->
  (forall ix, in_range shape' ix -> f' ix <> [] /\ free_of ["{"; "}"; " "]%char (f' ix)) ->
  braces shape f = braces shape' f' ->
  shape = shape' /\ forall ix, in_range shape ix -> f ix = f' ix.
Proof.
  intros shape shape' f f' P P' F F' E.
  destruct (braces_split shape shape' f f' [] [] P P' F F') as (A & B & _); simpl; auto. rewrite !app_nil_r. auto.
Qed.

(** Any array or view (after any history of slicings), printed to an ordinary stream: nested
    braces, items separated by spaces, element texts at their places. *)
Theorem C28_plain : forall (V : Type) (show : V -> text) (cells : list V) chk es steps,
  good_shape es -> ok_steps (afull es) steps -> Z.of_nat (List.length cells) = zprod es ->
  exists fuel0, forall fuel, (fuel0 <= fuel)%nat -> exists s shape ps vals,
    foldO (run chk fuel) steps (SRef 0 es) = Ok s /\ dims s = Some shape /\
    aselects (afull es) steps = (shape, ps) /\ mapO (get cells) ps = Ok vals /\
    stream_print show cells chk fuel Plain s = Ok (braces shape (elem_text show shape vals), Plain).
Proof.
  intros V show cells chk es steps G H L. destruct (print_reachable show cells chk es steps G H L) as (f0 & P).
  exists f0. intros fuel Hf. destruct (P fuel Hf) as (s & shape & ps & vals & A & B & C & D & E).
  exists s, shape, ps, vals. repeat (split; [assumption|]). unfold stream_print, order. rewrite B, os_is_aos, E by discriminate.
  cbn [bindO]. rewrite formats_default. reflexivity.
Qed.
Print Assumptions C28_plain.

(** Printed to an array_ostream: the innermost dimension has the last format, and so on
    outwards; the first format is used for the dimensions left over. *)
Theorem C28_formatted : forall (V : Type) (show : V -> text) (cells : list V) chk es steps fmts,
  good_shape es -> ok_steps (afull es) steps -> Z.of_nat (List.length cells) = zprod es ->
  exists fuel0, forall fuel, (fuel0 <= fuel)%nat -> exists s shape ps vals,
    foldO (run chk fuel) steps (SRef 0 es) = Ok s /\ dims s = Some shape /\
    aselects (afull es) steps = (shape, ps) /\ mapO (get cells) ps = Ok vals /\
    let fmts' := match fmts with [] => [default_fmt] | _ => fmts end in
    stream_print show cells chk fuel (Formatted fmts) s
    = Ok (nested (formats_for fmts' (List.length shape)) shape (elem_text show shape vals), Formatted fmts').
Proof.
  intros V show cells chk es steps fmts G H L. destruct (print_reachable show cells chk es steps G H L) as (f0 & P).
  exists f0. intros fuel Hf. destruct (P fuel Hf) as (s & shape & ps & vals & A & B & C & D & E).
  exists s, shape, ps, vals. repeat (split; [assumption|]). cbv zeta. fold (ensure fmts). unfold stream_print, order. rewrite B.
  assert (X : aos_print show cells chk fuel (List.length shape) fmts s = aos_print show cells chk fuel (List.length shape) (ensure fmts) s).
  { destruct fmts as [|f l]; auto. destruct shape; cbn [List.length aos_print ensure]; auto. }
  rewrite X, E by apply ensure_ne. reflexivity.
Qed.
Print Assumptions C28_formatted.

(** The text printed to an ordinary stream determines the number of dimensions, the extents and
    the element texts, if these are not empty and have no braces or spaces: two arrays or
    views of any kind, sources, histories and element types that print the same. *)
Definition plain_text (t : text) : Prop := t <> [] /\ free_of ["{"; "}"; " "]%char t.

Lemma elem_text_plain {V} (show : V -> text) (cells : list V) shape ps vals :
  Forall (fun v => plain_text (show v)) cells -> mapO (get cells) ps = Ok vals ->
  List.length ps = Z.to_nat (zprod shape) ->
  forall ix, in_range shape ix -> plain_text (elem_text show shape vals ix).
Proof.
  intros F E L ix Hix. assert (Fv : Forall (fun v => plain_text (show v)) vals /\ List.length vals = List.length ps).
  { clear L Hix. revert vals E. induction ps as [|p ps IH]; intros vals E; cbn [mapO] in E.
    - inversion E; subst. split; auto.
    - destruct (get cells p) as [v| | | |] eqn:Ep; try discriminate. cbn [bindO] in E.
      destruct (mapO (get cells) ps) as [r| | | |] eqn:Er; try discriminate. cbn [bindO] in E. inversion E; subst.
      destruct (IH r eq_refl) as (A & B). split; [|simpl; congruence]. constructor; auto.
      unfold get in Ep. destruct ((0 <=? p) && (p <? Z.of_nat (List.length cells))); [|discriminate].
      destruct (nth_error cells (Z.to_nat p)) as [w|] eqn:N; inversion Ep; subst.
      rewrite Forall_forall in F. apply F. eapply nth_error_In; eauto. }
  destruct Fv as (Fv & Lv). unfold elem_text. pose proof (cm_pos_range _ _ Hix) as R.
  destruct (nth_error vals (Z.to_nat (cm_pos shape ix))) as [v|] eqn:N.
  - rewrite Forall_forall in Fv. apply Fv. eapply nth_error_In; eauto.
  - apply nth_error_None in N. lia.
Qed.

Lemma mapO_len {A B} (f : A -> outcome B) l r : mapO f l = Ok r -> List.length r = List.length l.
Proof.
  revert r. induction l as [|a l IH]; intros r E; cbn [mapO] in E; [inversion E; auto|].
  destruct (f a); try discriminate. cbn [bindO] in E. destruct (mapO f l) eqn:X; try discriminate. cbn [bindO] in E.
  inversion E. simpl. auto.
Qed.
Lemma ext_nth {A} (l l' : list A) : (forall i, nth_error l i = nth_error l' i) -> l = l'.
Proof.
  revert l'. induction l as [|a l IH]; intros [|b l'] H; auto; try (specialize (H O); discriminate).
  pose proof (H O) as X. inversion X. f_equal. apply IH. intros i. exact (H (S i)).
Qed.
Lemma cm_pos_onto es k : all_pos es -> 0 <= k < zprod es -> exists ix, in_range es ix /\ cm_pos es ix = k.
Proof.
  intros P H. assert (I : In k (map (cm_pos es) (colmajor es))).
  { rewrite cm_pos_colmajor by (apply all_pos_nonneg; auto). apply in_iota. auto. }
  apply in_map_iff in I as (ix & E & Hx). exists ix. split; auto. apply in_colmajor. auto.
Qed.

Theorem C28_injective : forall (V V' : Type) (show : V -> text) (show' : V' -> text) cells cells' chk es steps es' steps',
  good_shape es -> ok_steps (afull es) steps -> Z.of_nat (List.length cells) = zprod es ->
  good_shape es' -> ok_steps (afull es') steps' -> Z.of_nat (List.length cells') = zprod es' ->
  Forall (fun v => plain_text (show v)) cells -> Forall (fun v => plain_text (show' v)) cells' ->
  exists fuel0, forall fuel, (fuel0 <= fuel)%nat -> exists s s' t t' vals vals',
    foldO (run chk fuel) steps (SRef 0 es) = Ok s /\ foldO (run chk fuel) steps' (SRef 0 es') = Ok s' /\
    stream_print show cells chk fuel Plain s = Ok (t, Plain) /\ stream_print show' cells' chk fuel Plain s' = Ok (t', Plain) /\
    mapO (get cells) (snd (aselects (afull es) steps)) = Ok vals /\ mapO (get cells') (snd (aselects (afull es') steps')) = Ok vals' /\
    (t = t' -> dims s = dims s' /\ map show vals = map show' vals').
Proof.
  intros V V' show show' cells cells' chk es steps es' steps' G H L G' H' L' F F'.
  destruct (C28_plain V show cells chk es steps G H L) as (f0 & P).
  destruct (C28_plain V' show' cells' chk es' steps' G' H' L') as (f0' & P').
  exists (Nat.max (Nat.max f0 f0') (Nat.max (steps_fuel (afull es) steps) (steps_fuel (afull es') steps'))). intros fuel Hf.
  destruct (P fuel ltac:(lia)) as (s & shape & ps & vals & A & B & C & D & E).
  destruct (P' fuel ltac:(lia)) as (s' & shape' & ps' & vals' & A' & B' & C' & D' & E').
  destruct (reachable_aux chk (zprod es) steps fuel (SRef 0 es) (afull es) (sinv_full es G)) as [s0 [X0 [I [F0 N0]]]]; auto; try lia.
  { cbn. apply Forall_forall. intros p Hp. apply in_iota in Hp. exact Hp. }
  destruct (reachable_aux chk (zprod es') steps' fuel (SRef 0 es') (afull es') (sinv_full es' G')) as [s1 [X1 [I' [F1 N1]]]]; auto; try lia.
  { cbn. apply Forall_forall. intros p Hp. apply in_iota in Hp. exact Hp. }
  rewrite A in X0. inversion X0; subst s0. rewrite A' in X1. inversion X1; subst s1.
  destruct (sinv_good _ _ I) as [(Gn & Gp & GM) Glen]. destruct (sinv_good _ _ I') as [(Gn' & Gp' & GM') Glen'].
  rewrite C in *. rewrite C' in *. cbn [fst snd] in *.
  exists s, s', (braces shape (elem_text show shape vals)), (braces shape' (elem_text show' shape' vals')), vals, vals'.
  repeat (split; [assumption|]). intros T.
  assert (Lv : List.length vals = Z.to_nat (zprod shape)) by (rewrite (mapO_len _ _ _ D); lia).
  assert (Lv' : List.length vals' = Z.to_nat (zprod shape')) by (rewrite (mapO_len _ _ _ D'); lia).
  destruct (braces_inj shape shape' (elem_text show shape vals) (elem_text show' shape' vals') Gp Gp') as (Es & Ef); auto.
  { eapply elem_text_plain; eauto; lia. } { eapply elem_text_plain; eauto; lia. }
  subst shape'. split; [congruence|].
  apply ext_nth. intros k. rewrite !nth_error_map.
  destruct (Nat.lt_ge_cases k (List.length vals)) as [Hk|Hk].
  - destruct (cm_pos_onto shape (Z.of_nat k) Gp ltac:(lia)) as (ix & Hix & Ek). specialize (Ef ix Hix).
    unfold elem_text in Ef. rewrite Ek, Nat2Z.id in Ef.
    destruct (nth_error vals k) eqn:N; [|apply nth_error_None in N; lia].
    destruct (nth_error vals' k) eqn:N'; [|apply nth_error_None in N'; lia]. simpl. congruence.
  - assert (M : nth_error vals k = None) by (apply nth_error_None; auto).
    assert (M' : nth_error vals' k = None) by (apply nth_error_None; lia). rewrite M, M'. reflexivity.
Qed.
Print Assumptions C28_injective.

(** All index tuples, the last index varying fastest. *)
Fixpoint rowmajor (shape : list Z) : list (list Z) :=
  match shape with
  | [] => [[]]
  | e :: es => flat_map (fun i => map (cons i) (rowmajor es)) (iota e)
  end.

Definition not_delim (c : ascii) : bool := negb (existsb (Ascii.eqb c) ["{"; "}"; " "]%char).

Lemma strip_free t : free_of ["{"; "}"; " "]%char t -> filter not_delim t = t.
Proof.
  induction t as [|c t IH]; intros F; auto. cbn [filter].
  assert (E : not_delim c = true).
  { unfold not_delim. apply negb_true_iff. destruct (existsb (Ascii.eqb c) ["{"; "}"; " "]%char) eqn:X; auto.
    apply existsb_exists in X as (d & Hd & Y). apply Ascii.eqb_eq in Y. subst. exfalso. apply (F d); simpl; auto. }
  rewrite E, IH; auto. intros x Hx. apply F. simpl. auto.
Qed.

Lemma strip_join (ts : list text) : filter not_delim (join [" "%char] ts) = List.concat (map (filter not_delim) ts).
Proof.
  destruct ts as [|t ts]; auto. cbn [join map List.concat]. rewrite filter_app. f_equal.
  induction ts as [|u ts IH]; auto. cbn [map List.concat]. rewrite filter_app, IH. reflexivity.
Qed.

Lemma strip_braces : forall shape f,
  (forall ix, in_range shape ix -> free_of ["{"; "}"; " "]%char (f ix)) ->
  filter not_delim (braces shape f) = List.concat (map f (rowmajor shape)).
Proof.
  induction shape as [|e es IH]; intros f F.
  - cbn. rewrite app_nil_r. apply strip_free. apply F. constructor.
  - rewrite braces_cons. rewrite !filter_app, strip_join. cbn [filter not_delim existsb Ascii.eqb Bool.eqb orb negb app].
    rewrite app_nil_r, map_map. cbn [rowmajor]. rewrite flat_map_concat_map, concat_map, map_map.
    assert (X : forall l, (forall i, In i l -> 0 <= i < e) ->
      List.concat (map (fun x => filter not_delim (braces es (fun ix => f (x :: ix)))) l)
      = List.concat (List.concat (map (fun x => map f (map (cons x) (rowmajor es))) l))).
    { induction l as [|i l IHl]; intros Hl; auto. cbn [map List.concat]. rewrite concat_app, <- IHl by (intros; apply Hl; simpl; auto).
      f_equal. rewrite map_map. apply IH. intros ix Hix. apply F. constructor; auto. apply Hl. simpl. auto. }
    apply X. intros i Hi. apply in_iota in Hi. auto.
Qed.

(** Without the delimiters the text printed is the element texts one after the other, each once,
    in row-major order. *)
Theorem C28_each_element_once : forall (V : Type) (show : V -> text) (cells : list V) chk es steps,
  good_shape es -> ok_steps (afull es) steps -> Z.of_nat (List.length cells) = zprod es ->
  Forall (fun v => plain_text (show v)) cells ->
  exists fuel0, forall fuel, (fuel0 <= fuel)%nat -> exists s shape ps vals t,
    foldO (run chk fuel) steps (SRef 0 es) = Ok s /\ dims s = Some shape /\
    aselects (afull es) steps = (shape, ps) /\ mapO (get cells) ps = Ok vals /\
    stream_print show cells chk fuel Plain s = Ok (t, Plain) /\
    filter not_delim t = List.concat (map (elem_text show shape vals) (rowmajor shape)).
Proof.
  intros V show cells chk es steps G H L F. destruct (C28_plain V show cells chk es steps G H L) as (f0 & P).
  exists (Nat.max f0 (steps_fuel (afull es) steps)). intros fuel Hf.
  destruct (P fuel ltac:(lia)) as (s & shape & ps & vals & A & B & C & D & E).
  destruct (reachable_aux chk (zprod es) steps fuel (SRef 0 es) (afull es) (sinv_full es G)) as [s0 [X0 [I [F0 N0]]]]; auto; try lia.
  { cbn. apply Forall_forall. intros p Hp. apply in_iota in Hp. exact Hp. }
  destruct (sinv_good _ _ I) as [(Gn & Gp & GM) Glen]. rewrite C in Gn, Gp, GM, Glen. cbn [fst snd] in *.
  exists s, shape, ps, vals, (braces shape (elem_text show shape vals)). repeat (split; [assumption|]).
  apply strip_braces. intros ix Hix. apply (elem_text_plain show cells shape ps vals F D ltac:(lia) ix Hix).
Qed.
Print Assumptions C28_each_element_once.


(** Matrices printed after comma_separated, space_separated and tab_separated: one line per row,
    the element texts of a line separated by [c]. *)
Lemma print_table (V : Type) (show : V -> text) (cells : list V) chk es steps c fmts :
  good_shape es -> ok_steps (afull es) steps -> Z.of_nat (List.length cells) = zprod es ->
  fmts = sep_fmts c ->
  exists fuel0, forall fuel, (fuel0 <= fuel)%nat -> exists s shape ps vals,
    foldO (run chk fuel) steps (SRef 0 es) = Ok s /\ dims s = Some shape /\
    aselects (afull es) steps = (shape, ps) /\ mapO (get cells) ps = Ok vals /\
    forall r n, shape = [r; n] ->
      stream_print show cells chk fuel (Formatted fmts) s
      = Ok (table c (map (fun i => map (fun j => elem_text show [r; n] vals [i; j]) (iota n)) (iota r)), Formatted fmts).
Proof.
  intros G H L ->. destruct (C28_formatted V show cells chk es steps (sep_fmts c) G H L) as (f0 & P).
  exists f0. intros fuel Hf. destruct (P fuel Hf) as (s & shape & ps & vals & A & B & C & D & E).
  exists s, shape, ps, vals. repeat (split; [assumption|]). intros r n ->. cbv zeta in E. rewrite E.
  pose proof (nested_table c r n (elem_text show [r; n] vals)) as X. do 2 f_equal. exact X.
Qed.

Theorem C28_tables : forall (V : Type) (show : V -> text) (cells : list V) chk es steps c fmts,
  good_shape es -> ok_steps (afull es) steps -> Z.of_nat (List.length cells) = zprod es ->
  In (c, fmts) [(","%char, comma_fmts); (" "%char, space_fmts); (ascii_of_nat 9, tab_fmts)] ->
  exists fuel0, forall fuel, (fuel0 <= fuel)%nat -> exists s shape ps vals,
    foldO (run chk fuel) steps (SRef 0 es) = Ok s /\ dims s = Some shape /\
    aselects (afull es) steps = (shape, ps) /\ mapO (get cells) ps = Ok vals /\
    forall r n, shape = [r; n] ->
      stream_print show cells chk fuel (Formatted fmts) s
      = Ok (table c (map (fun i => map (fun j => elem_text show [r; n] vals [i; j]) (iota n)) (iota r)), Formatted fmts).
Proof.
  intros V show cells chk es steps c fmts G H L Hc. apply print_table; auto.
  destruct Hc as [X|[X|[X|[]]]]; inversion X; reflexivity.
Qed.
Print Assumptions C28_tables.

(** ... and such a text determines the matrix of texts, if these have no separators and no
    newlines. *)
Theorem C28_tables_injective : forall c rows rows', In c [","%char; " "%char; ascii_of_nat 9] ->
  rows <> [] -> rows' <> [] -> Forall (fun r => r <> []) rows -> Forall (fun r => r <> []) rows' ->
  Forall (Forall (free_of [c; newline])) rows -> Forall (Forall (free_of [c; newline])) rows' ->
  table c rows = table c rows' -> rows = rows'.
Proof.
  intros c rows rows' Hc. apply table_inj. intros E. subst. simpl in Hc. destruct Hc as [X|[X|[X|[]]]]; discriminate.
Qed.
Print Assumptions C28_tables_injective.

(** dimensions_format: the new formats are in force for what is printed next, and giving back
    the formats returned restores the way everything was printed before. *)
Theorem C28_exchange : forall (V : Type) (show : V -> text) (cells : list V) chk fuel fmts new s,
  let (current, old) := exchange_fmts fmts new in
  stream_print show cells chk fuel (Formatted current) s = stream_print show cells chk fuel (Formatted new) s /\
  stream_print show cells chk fuel (Formatted (fst (exchange_fmts current old))) s = stream_print show cells chk fuel (Formatted fmts) s.
Proof. intros. split; reflexivity. Qed.
Print Assumptions C28_exchange.

(** The setter for dimension [k] changes the k-th format only; new formats in between are the
    default. *)
Theorem C28_setter : forall fmts k f,
  List.length (set_dim_fmt fmts k f) = Nat.max (List.length fmts) (S k) /\
  forall j, (j < Nat.max (List.length fmts) (S k))%nat ->
    nth j (set_dim_fmt fmts k f) default_fmt
    = if Nat.eqb j k then f else if Nat.ltb j (List.length fmts) then nth j fmts default_fmt else default_fmt.
Proof.
  intros fmts k f. split; [apply set_dim_length|]. intros j Hj. rewrite set_dim_nth.
  destruct (j =? k)%nat; auto. destruct (Nat.ltb_spec j (List.length fmts)); auto. apply nth_overflow. auto.
Qed.
Print Assumptions C28_setter.

Lemma formats_nth fmts n j : fmts <> [] -> (n <= List.length fmts)%nat -> (j < n)%nat ->
  nth j (formats_for fmts n) default_fmt = nth (List.length fmts - n + j) fmts default_fmt.
Proof.
  intros Hne Hn Hj. unfold formats_for. assert (X : (n <=? List.length fmts)%nat = true) by (apply Nat.leb_le; auto). rewrite X.
  generalize (List.length fmts - n)%nat. clear. intros k. revert fmts. induction k; intros [|a l]; simpl; auto. destruct j; auto.
Qed.

Lemma setter_nth : forall fmts k f n j,
  n = List.length (set_dim_fmt fmts k f) -> (j < n)%nat ->
  nth j (formats_for (set_dim_fmt fmts k f) n) default_fmt
  = if Nat.eqb j k then f else nth j fmts default_fmt.
Proof.
  intros fmts k f n j Hn Hj.
  assert (Hne : set_dim_fmt fmts k f <> []) by (intros X; rewrite X in Hn; simpl in Hn; lia).
  rewrite formats_nth; [|auto|lia|auto]. rewrite <- Hn, Nat.sub_diag. apply set_dim_nth.
Qed.

Lemma setter_fewer_nth : forall fmts k f n j,
  (k < List.length fmts)%nat -> (n <= List.length fmts)%nat -> (j < n)%nat ->
  nth j (formats_for (set_dim_fmt fmts k f) n) default_fmt
  = if Nat.eqb (List.length fmts - n + j) k then f else nth j (formats_for fmts n) default_fmt.
Proof.
  intros fmts k f n j Hk Hn Hj. pose proof (set_dim_length fmts k f) as L.
  replace (Nat.max (List.length fmts) (S k)) with (List.length fmts) in L by lia.
  assert (Hne : set_dim_fmt fmts k f <> []) by (intros X; rewrite X in L; simpl in L; lia).
  assert (Hne' : fmts <> []) by (intros X; subst; simpl in Hk; lia).
  rewrite formats_nth; [|auto|lia|auto]. rewrite L, set_dim_nth, <- formats_nth; auto.
Qed.

Lemma list_by_nth (l : list dim_fmt) n g : List.length l = n -> (forall j, (j < n)%nat -> nth j l default_fmt = g j) ->
  l = map g (seq 0 n).
Proof.
  intros L H. apply nth_ext with (d := default_fmt) (d' := g 0%nat); [rewrite map_length, seq_length; auto|].
  intros j Hj. rewrite map_nth, seq_nth by lia. rewrite H by lia. reflexivity.
Qed.

(** For arrays with as many dimensions as the stream has formats after it, the setter changes the
    way dimension [k] is printed and no other. *)
Theorem C28_setter_dimension : forall (V : Type) (show : V -> text) (cells : list V) chk es steps fmts k f,
  good_shape es -> ok_steps (afull es) steps -> Z.of_nat (List.length cells) = zprod es ->
  exists fuel0, forall fuel, (fuel0 <= fuel)%nat -> exists s shape ps vals,
    foldO (run chk fuel) steps (SRef 0 es) = Ok s /\ dims s = Some shape /\
    aselects (afull es) steps = (shape, ps) /\ mapO (get cells) ps = Ok vals /\
    let n := List.length shape in
    (n = Nat.max (List.length fmts) (S k) ->
     exists fmts', stream_print show cells chk fuel (Formatted (set_dim_fmt fmts k f)) s
       = Ok (nested (map (fun j => if Nat.eqb j k then f else nth j fmts default_fmt) (seq 0 n)) shape (elem_text show shape vals), fmts')).
Proof.
  intros V show cells chk es steps fmts k f G H L.
  destruct (C28_formatted V show cells chk es steps (set_dim_fmt fmts k f) G H L) as (f0 & P).
  exists f0. intros fuel Hf. destruct (P fuel Hf) as (s & shape & ps & vals & A & B & C & D & E).
  exists s, shape, ps, vals. repeat (split; [assumption|]). intros n Hn. cbv zeta in E. rewrite E. eexists. do 3 f_equal.
  pose proof (set_dim_length fmts k f) as Ls. fold n.
  destruct (set_dim_fmt fmts k f) as [|x l] eqn:X; [simpl in Ls; lia|]. rewrite <- X in *.
  apply list_by_nth; [apply formats_for_length|]. intros j Hj. apply setter_nth; lia.
Qed.
Print Assumptions C28_setter_dimension.

(** For arrays with [n] dimensions, not more than there are formats, dimension [j] is printed with
    format [length - n + j]: the setter changes dimension [k - (length - n)] and no other. *)
Theorem C28_setter_fewer_dimensions : forall (V : Type) (show : V -> text) (cells : list V) chk es steps fmts k f,
  good_shape es -> ok_steps (afull es) steps -> Z.of_nat (List.length cells) = zprod es -> (k < List.length fmts)%nat ->
  exists fuel0, forall fuel, (fuel0 <= fuel)%nat -> exists s shape ps vals,
    foldO (run chk fuel) steps (SRef 0 es) = Ok s /\ dims s = Some shape /\
    aselects (afull es) steps = (shape, ps) /\ mapO (get cells) ps = Ok vals /\
    let n := List.length shape in
    let print g := exists fmts', stream_print show cells chk fuel (Formatted g) s = Ok
         (nested (map (fun j => nth (List.length fmts - n + j) g default_fmt) (seq 0 n)) shape (elem_text show shape vals), fmts') in
    ((n <= List.length fmts)%nat -> print fmts /\ print (set_dim_fmt fmts k f) /\
     forall j, (j < n)%nat -> nth (List.length fmts - n + j) (set_dim_fmt fmts k f) default_fmt
       = if Nat.eqb (List.length fmts - n + j) k then f else nth (List.length fmts - n + j) fmts default_fmt).
Proof.
  intros V show cells chk es steps fmts k f G H L Hk.
  destruct (print_reachable show cells chk es steps G H L) as (f0 & P).
  exists f0. intros fuel Hf. destruct (P fuel Hf) as (s & shape & ps & vals & A & B & C & D & E).
  exists s, shape, ps, vals. repeat (split; [assumption|]). intros n print Hn.
  pose proof (set_dim_length fmts k f) as Ls. rewrite Nat.max_l in Ls by lia.
  assert (X : forall g, List.length g = List.length fmts -> print g).
  { intros g Lg. assert (Hg : g <> []) by (intros ->; simpl in Lg; lia).
    unfold print, stream_print, order. rewrite B, E by auto. cbn [bindO]. eexists. do 3 f_equal. fold n.
    apply list_by_nth; [apply formats_for_length|]. intros j Hj. rewrite formats_nth by (auto; lia). rewrite Lg. reflexivity. }
  split; [apply X; auto|]. split; [apply X; auto|]. intros j Hj. apply set_dim_nth.
Qed.
Print Assumptions C28_setter_fewer_dimensions.

(** With other numbers of dimensions the setter changes another dimension: on a new stream the
    setter for dimension 1 changes dimension 2 of arrays with three dimensions, and dimension 1
    keeps its format. *)
Theorem C28_setter_other_order_refuted : exists fmts k f (V : Type) (show : V -> text) (cells : list V) es,
  fmts = ensure [] /\ k = 1%nat /\ List.length es = 3%nat /\ Z.of_nat (List.length cells) = zprod es /\
  forall chk fuel,
    stream_print show cells chk fuel (Formatted fmts) (SRef 0 es)
    = Ok (nested [default_fmt; default_fmt; default_fmt] es (elem_text show es cells), Formatted fmts) /\
    stream_print show cells chk fuel (Formatted (set_dim_fmt fmts k f)) (SRef 0 es)
    = Ok (nested [default_fmt; default_fmt; f] es (elem_text show es cells), Formatted [default_fmt; f]) /\
    nested [default_fmt; default_fmt; f] es (elem_text show es cells) <> nested [default_fmt; f; default_fmt] es (elem_text show es cells).
Proof.
  exists [default_fmt], 1%nat, (Fmt [] [","%char] []), nat, (fun n => [ascii_of_nat (48 + n)]), [1; 2; 3; 4; 5; 6; 7; 8]%nat, [2; 2; 2].
  repeat split; try (destruct chk; reflexivity). discriminate.
Qed.
Print Assumptions C28_setter_other_order_refuted.

(** *** Arrays without elements *)

(** In builds without assertions empty arrays of any shape are printed with empty braces at the
    first dimension with extent zero. *)
Theorem C28_empty : forall (V : Type) (show : V -> text) cells fuel es,
  all_nonneg es -> In 0 es ->
  stream_print show cells false fuel Plain (SRef 0 es) = Ok (braces es (fun _ => []), Plain).
Proof.
  intros V show cells fuel es Hn Hz. unfold stream_print, order. cbn [dims]. rewrite os_is_aos, aos_print_empty; auto; [|discriminate].
  cbn [bindO]. rewrite formats_default. reflexivity.
Qed.
Print Assumptions C28_empty.

(** With assertions, printing an array with a zero extent after the first aborts. *)
Theorem C28_empty_checked_refuted : exists es, all_nonneg es /\
  forall (V : Type) (show : V -> text) cells fuel, stream_print show cells true fuel Plain (SRef 0 es) = Abort.
Proof. exists [2; 0]. split; [repeat constructor; lia|]. intros. reflexivity. Qed.

(** The text of an empty array does not determine the extents. *)
Theorem C28_empty_extents_refuted : exists es es', all_nonneg es /\ all_nonneg es' /\ es <> es' /\
  forall (V : Type) (show : V -> text) cells chk fuel t,
    stream_print show cells chk fuel Plain (SRef 0 es) = Ok t <-> stream_print show cells chk fuel Plain (SRef 0 es') = Ok t.
Proof.
  exists [0; 5], [0; 7]. split; [repeat constructor; lia|]. split; [repeat constructor; lia|]. split; [discriminate|]. intros. reflexivity.
Qed.

(** Element texts with delimiters, or without characters: different arrays, one text. *)
Theorem C28_delimiters_refuted : exists (show : text -> text) cells cells' es es',
  Z.of_nat (List.length cells) = zprod es /\ Z.of_nat (List.length cells') = zprod es' /\ es <> es' /\
  forall chk fuel, exists t,
    stream_print show cells chk fuel Plain (SRef 0 es) = Ok t /\ stream_print show cells' chk fuel Plain (SRef 0 es') = Ok t.
Proof.
  exists (fun t => t), [["a"%char]; ["a"%char]], [["a"; " "; "a"]%char], [2], [1].
  repeat (split; [first [reflexivity|discriminate]|]). intros chk fuel. eexists. split; destruct chk; reflexivity.
Qed.

(** *** Cases *)
Definition digit (n : nat) : text := [ascii_of_nat (48 + n)].
Definition cells6 : list nat := [1; 2; 3; 4; 5; 6]%nat.
Example C28_ex :
  (let* s := run true 100 (SRef 0 [2; 3]) [UEvery; URange [2; 0]] in
   let* (t, _) := stream_print digit cells6 true 100 Plain s in Ok (string_of_list_ascii t)) = Ok "{{5 1} {6 2}}"%string /\
  (let* (t, _) := stream_print digit cells6 true 100 (Formatted comma_fmts) (SRef 0 [2; 3]) in Ok (string_of_list_ascii t))
    = Ok ("1,3,5" ++ String newline "2,4,6")%string /\
  (let* (t, _) := stream_print digit cells6 true 100 (Formatted (set_dim_fmt [] 0 (Fmt ["["%char] [";"%char] ["]"%char]))) (SRef 0 [2; 3]) in
   Ok (string_of_list_ascii t)) = Ok "[[1;3;5];[2;4;6]]"%string /\
  ok_steps (afull [2; 3]) [[UEvery; URange [2; 0]]].
Proof. split; [reflexivity|]. split; [reflexivity|]. split; [reflexivity|]. vm_compute; repeat (split || constructor); try discriminate; auto. Qed.
Example C28_injective_ex : Forall (fun v => plain_text (digit v)) cells6.
Proof.
  repeat constructor; try discriminate; intros c Hc Hd; cbn in Hc, Hd;
  destruct Hc as [<-|[]]; destruct Hd as [Hd|[Hd|[Hd|[]]]]; discriminate.
Qed.
Example C28_text_ex : forall ix, in_range [2; 3] ix ->
  elem_text digit [2; 3] cells6 ix <> [] /\ free_of ["{"; "}"; " "]%char (elem_text digit [2; 3] cells6 ix).
Proof.
  intros ix H. inversion H as [|? i ? ix1 Hi H1]; subst. inversion H1 as [|? j ? ix2 Hj H2]; subst. inversion H2; subst.
  assert (A : i = 0 \/ i = 1) by lia. assert (B : j = 0 \/ j = 1 \/ j = 2) by lia.
  destruct A as [->| ->], B as [->|[->| ->]]; (split; [discriminate|]); intros c Hc Hd; cbn in Hc, Hd;
  destruct Hc as [<-|[]]; destruct Hd as [Hd|[Hd|[Hd|[]]]]; discriminate.
Qed.
