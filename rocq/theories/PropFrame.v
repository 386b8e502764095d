(** * PropFrame: C29-C32 — dataframes under every history. *)

From Coq Require Import ZArith Bool Ascii String List Lia.
From Verif Require Import Base Coerce CoerceSpec Frame FrameSpec FrameProofs.
Import ListNotations.
Open Scope Z_scope.
Open Scope list_scope.

Definition tx (l : list ascii) : text := l.
Notation "'c_a'" := (tx ["a"%char]) (only parsing).
Notation "'c_b'" := (tx ["b"%char]) (only parsing).

(** Two sample columns with two rows, one with three. *)
Definition k12 : column := col_of TInt [CInt 1; CInt 2].
Definition k34 : column := col_of TInt [CInt 3; CInt 4].
Definition k567 : column := col_of TInt [CInt 5; CInt 6; CInt 7].

(** ** C29: dataframes stay rectangular *)

(** After every program of constructions (from ranges, columns, text), copies, moves,
    assignments, binds and heads, successful or throwing, every column of every dataframe has
    exactly row_count() rows. *)
Theorem C29_rectangular : forall e d nc,
  reach any_cmd e -> In d e -> In nc (elems d) -> col_size (ncolumn nc) = rows d.
Proof.
  intros e d nc R Hd Hn. apply reach_rect in R.
  rewrite Forall_forall in R. specialize (R d Hd). unfold rect in R. rewrite Forall_forall in R. auto.
Qed.
Print Assumptions C29_rectangular.

(** A program whose second bind throws (three rows), and that goes on. *)
Example C29_ex : reach any_cmd
  [mkDf 2 [mkN c_a k12; mkN [] k34; mkN c_b k34] [(c_a, 0); (c_b, 2)]].
Proof.
  pose proof (reach_nil _ : reach any_cmd []) as R0.
  pose proof (reach_step _ _ (CRange [mkN c_a k12]) _ _ R0 I eq_refl (or_introl eq_refl)) as R1.
  pose proof (reach_step _ _ (CBind 0 (BColumn k34)) _ _ R1 I eq_refl (or_introl eq_refl)) as R2.
  pose proof (reach_step _ _ (CBind 0 (BNamed (mkN c_b k567))) _ _ R2 I eq_refl (or_intror (ex_intro _ _ eq_refl))) as R3.
  pose proof (reach_step _ _ (CBind 0 (BNamed (mkN c_b k34))) _ _ R3 I eq_refl (or_introl eq_refl)) as R4.
  exact R4.
Qed.

(** ** C30: lookup by name *)

(** In the histories where range constructors list the named columns first (and no variable is
    made from a single named column), lookup by name returns a column with that name, finds
    every name that is carried, and throws for all others. *)
Theorem C30_lookup_partial : forall e d,
  reach named_first_cmd e -> In d e -> lookup_ok d.
Proof.
  intros e d R Hd. apply reach_good in R. rewrite Forall_forall in R. apply good_lookup. auto.
Qed.
Print Assumptions C30_lookup_partial.

Example C30_ex : reach named_first_cmd
  [mkDf 2 [mkN c_a k12; mkN [] k34; mkN c_b k34] [(c_a, 0); (c_b, 2)]].
Proof.
  pose proof (reach_nil _ : reach named_first_cmd []) as R0.
  assert (K : named_first_cmd (CRange [mkN c_a k12]) []).
  { exists [c_a], []. repeat split; repeat constructor. discriminate. }
  pose proof (reach_step _ _ (CRange [mkN c_a k12]) _ _ R0 K eq_refl (or_introl eq_refl)) as R1.
  pose proof (reach_step _ _ (CBind 0 (BColumn k34)) _ _ R1 I eq_refl (or_introl eq_refl)) as R2.
  pose proof (reach_step _ _ (CBind 0 (BNamed (mkN c_b k34))) _ _ R2 I eq_refl (or_introl eq_refl)) as R3.
  exact R3.
Qed.

(** For the range constructor the condition is exact. *)
Theorem C30_range_iff : forall l d,
  ctor_range l = Ok d -> (lookup_ok d <-> named_first (map nname l)).
Proof.
  intros l d H. pose proof (ctor_range_Ok _ _ H) as E. unfold ctor_range in H. split.
  - intros L. pose proof (ctor_lookup_named_first _ _ H L) as N. unfold names in N. now rewrite E in N.
  - intros N. apply ctor_from_Ok in H. destruct H as (_ & _ & _ & C & _ & _ & S & _).
    apply lookup_of; auto. apply S. unfold names. now rewrite E.
Qed.
Print Assumptions C30_range_iff.
Example C30_range_ex : exists d, ctor_range [mkN c_a k12; mkN [] k34] = Ok d.
Proof. eexists. reflexivity. Qed.

(** In such histories every named column is found by its name. *)
Theorem C30_lookup_exact_partial : forall e d nc,
  reach named_first_cmd e -> In d e -> In nc (elems d) -> nname nc <> [] ->
  at_name d (nname nc) = Ok nc.
Proof.
  intros e d nc R Hd Hin Hn. apply reach_good in R. rewrite Forall_forall in R. specialize (R d Hd).
  exact (good_at _ _ R Hin Hn).
Qed.
Print Assumptions C30_lookup_exact_partial.
Example C30_exact_ex :
  at_name (mkDf 2 [mkN c_a k12; mkN [] k34; mkN c_b k34] [(c_a, 0); (c_b, 2)]) c_b = Ok (mkN c_b k34).
Proof. reflexivity. Qed.

(** Whatever is bound (also a single named column), bind preserves correct lookup. *)
Theorem C30_bind_lookup : forall d other d' r,
  lookup_ok d -> bind d other = (d', r) -> lookup_ok d'.
Proof.
  intros d other d' r L H. apply lookup_inv in L. destruct L as [S C].
  destruct (bind_index _ _ _ _ H) as (A & B & _). apply lookup_of; auto.
Qed.
Print Assumptions C30_bind_lookup.
Example C30_bind_ex : lookup_ok df_default /\ exists d', bind df_default (ctor_named (mkN c_a k12)) = (d', Ok tt)
  /\ at_name d' c_a = Ok (mkN c_a k12).
Proof. split; [exact (good_lookup _ good_default)|]. eexists. split; reflexivity. Qed.

(** Two dataframes made by ordinary programs on which lookup is wrong: a range with an unnamed
    column before a named one returns the unnamed column; a single named column is not
    found. *)
Theorem C30_lookup_refuted : exists d1 d2 nc,
  reach any_cmd [d1; d2]
  /\ In (mkN c_b k34) (elems d1) /\ at_name d1 c_b = Ok nc /\ nname nc = []
  /\ In (mkN c_b k34) (elems d2) /\ at_name d2 c_b = Throw LogicError.
Proof.
  exists (mkDf 2 [mkN [] k12; mkN c_b k34] [(c_b, 0)]), (ctor_named (mkN c_b k34)), (mkN [] k12).
  split; [|cbn; tauto].
  pose proof (reach_nil _ : reach any_cmd []) as R0.
  pose proof (reach_step _ _ (CRange [mkN [] k12; mkN c_b k34]) _ _ R0 I eq_refl (or_introl eq_refl)) as R1.
  pose proof (reach_step _ _ (CNamed (mkN c_b k34)) _ _ R1 I eq_refl (or_introl eq_refl)) as R2.
  exact R2.
Qed.

(** The same happens when head is applied to a dataframe that was read with an unnamed
    first header field: at("b") is right before and wrong after. *)
Theorem C30_head_refuted : exists d d' nc nc',
  reach any_cmd [d; d']
  /\ read true is_nl is_tab ["009"; "b"; "010"; "1"; "009"; "2"; "010"]%char = Ok d
  /\ head 1 d = Ok d'
  /\ at_name d c_b = Ok nc /\ nname nc = c_b
  /\ at_name d' c_b = Ok nc' /\ nname nc' = [].
Proof.
  pose (c1 := col_of TStr [CStr ["1"%char]]). pose (c2 := col_of TStr [CStr ["2"%char]]).
  exists (mkDf 1 [mkN [] c1; mkN c_b c2] [(c_b, 1)]), (mkDf 1 [mkN [] c1; mkN c_b c2] [(c_b, 0)]),
    (mkN c_b c2), (mkN [] c1).
  split; [|repeat split].
  pose proof (reach_nil _ : reach any_cmd []) as R0.
  pose proof (reach_step _ _ (CRead true is_nl is_tab ["009"; "b"; "010"; "1"; "009"; "2"; "010"]%char) _ _ R0 I eq_refl (or_introl eq_refl)) as R1.
  pose proof (reach_step _ _ (CHead 1 0) _ _ R1 I eq_refl (or_introl eq_refl)) as R2.
  exact R2.
Qed.

(** Lookup by position: the column at that position, or the call throws. *)
Theorem C30_at_position : forall d pos,
  0 <= pos ->
  (forall nc, at_pos d pos = Ok nc <-> nth_error (elems d) (Z.to_nat pos) = Some nc)
  /\ (column_count d <= pos -> at_pos d pos = Throw LogicError)
  /\ (pos < column_count d -> exists nc, at_pos d pos = Ok nc).
Proof.
  intros d pos Hp. unfold at_pos, column_count. split; [|split].
  - intros nc. destruct (pos <? Z.of_nat (length (elems d))) eqn:E.
    + rewrite get_Ok. tauto.
    + split; [discriminate|]. intros H. assert (X : nth_error (elems d) (Z.to_nat pos) <> None) by congruence.
      apply nth_error_Some in X. lia.
  - intros H. destruct (pos <? _) eqn:E; [lia|reflexivity].
  - intros H. destruct (pos <? _) eqn:E; [|lia].
    destruct (nth_error (elems d) (Z.to_nat pos)) as [nc|] eqn:F; [exists nc; apply get_Ok; auto|].
    apply nth_error_None in F. lia.
Qed.
Print Assumptions C30_at_position.
Example C30_pos_ex : at_pos (mkDf 2 [mkN [] k12; mkN c_b k34] []) 1 = Ok (mkN c_b k34)
  /\ at_pos (mkDf 2 [mkN [] k12; mkN c_b k34] []) 2 = Throw LogicError.
Proof. split; reflexivity. Qed.

(** ** C31: names are unique *)

(** Without variables made from a single named column, no two columns ever carry the same
    non-empty name. *)
Theorem C31_unique_names_partial : forall e d,
  reach no_named e -> In d e ->
  forall i j n, nth_error (names d) i = Some n -> nth_error (names d) j = Some n -> n <> [] -> i = j.
Proof.
  intros e d R Hd. apply reach_unique in R. rewrite Forall_forall in R. exact (proj2 (R d Hd)).
Qed.
Print Assumptions C31_unique_names_partial.

Example C31_ex : reach no_named [mkDf 2 [mkN [] k12; mkN c_b k34; mkN [] k34] [(c_b, 0)]]
  /\ snd (bind (mkDf 2 [mkN [] k12; mkN c_b k34; mkN [] k34] [(c_b, 0)]) (ctor_named (mkN c_b k12))) = Throw LogicError.
Proof.
  split; [|reflexivity].
  pose proof (reach_nil _ : reach no_named []) as R0.
  pose proof (reach_step _ _ (CRange [mkN [] k12; mkN c_b k34]) _ _ R0 I eq_refl (or_introl eq_refl)) as R1.
  pose proof (reach_step _ _ (CBind 0 (BColumn k34)) _ _ R1 I eq_refl (or_introl eq_refl)) as R2.
  exact R2.
Qed.

(** A constructor from a range refuses repeated names. *)
Theorem C31_range_refuses : forall l, l <> [] ->
  (forall nc, In nc l -> ncolumn nc <> None) ->
  ~ unique_names (map nname l) -> ctor_range l = Throw LogicError.
Proof.
  intros l N Hc U. destruct (ctor_range_total l N Hc) as [[d Hd]|H]; [|exact H].
  elim U. pose proof (ctor_range_Ok _ _ Hd) as E. unfold ctor_range in Hd. apply ctor_from_Ok in Hd.
  destruct Hd as (_ & _ & U' & _). unfold names in U'. now rewrite E in U'.
Qed.
Print Assumptions C31_range_refuses.
Example C31_range_ex : ctor_range [mkN c_a k12; mkN c_a k34] = Throw LogicError.
Proof. reflexivity. Qed.

(** A dataframe made from a single named column accepts the same name again. *)
Theorem C31_unique_names_refuted : exists d,
  reach any_cmd [d] /\ nth_error (names d) 0 = Some c_a /\ nth_error (names d) 1 = Some c_a.
Proof.
  exists (mkDf 2 [mkN c_a k12; mkN c_a k34] [(c_a, 1)]). split; [|split; reflexivity].
  pose proof (reach_nil _ : reach any_cmd []) as R0.
  pose proof (reach_step _ _ (CNamed (mkN c_a k12)) _ _ R0 I eq_refl (or_introl eq_refl)) as R1.
  pose proof (reach_step _ _ (CBind 0 (BNamed (mkN c_a k34))) _ _ R1 I eq_refl (or_introl eq_refl)) as R2.
  exact R2.
Qed.

(** ** C32: bind has the strong guarantee *)

(** bind either throws and changes nothing, or appends the columns of its argument in order
    and changes no other column. *)
Theorem C32_bind_strong : forall d other d' r, bind d other = (d', r) ->
  (r = Throw LogicError /\ d' = d)
  \/ (r = Ok tt /\ elems d' = elems d ++ elems other /\ rows d' = rows other
      /\ (elems d <> [] -> rows d' = rows d)).
Proof.
  intros d other d' r H. destruct (bind_cases _ _ _ _ H) as [(-> & -> & _)|(-> & C & R & E)]; [left; auto|right].
  destruct (bind_Ok_elems _ _ _ H) as (A & B & _). repeat split; auto.
  intros N. rewrite B. symmetry. auto.
Qed.
Print Assumptions C32_bind_strong.

(** When it throws: a name of the argument is already there, or the row counts differ. *)
Theorem C32_bind_when : forall d other,
  lookup_ok d ->
  (snd (bind d other) = Throw LogicError <->
     (exists n, n <> [] /\ In n (names d) /\ In n (names other))
     \/ (elems d <> [] /\ rows d <> rows other)).
Proof.
  intros d other L. apply lookup_inv in L. destruct L as [S C].
  destruct (bind d other) as [d' r] eqn:H. cbn [snd].
  assert (CL : clash d other = true <-> exists n, n <> [] /\ In n (names d) /\ In n (names other)).
  { rewrite clash_true. split; intros (n & A & B & D).
    - exists n. repeat split; auto. exact (proj2 (sound_keys _ _ S n D)).
    - exists n. repeat split; auto. }
  destruct (bind_cases _ _ _ _ H) as [(-> & _ & D)|(-> & D & R & _)].
  - split; auto. intros _. destruct D as [D|D]; [left; now apply CL|right; auto].
  - split; [discriminate|]. intros [X|[X Y]]; [apply CL in X; congruence|]. elim Y; auto.
Qed.
Print Assumptions C32_bind_when.

(** The names found before are still found, with the same columns. *)
Theorem C32_bind_keeps_lookup : forall d other d' n nc,
  lookup_ok d -> bind d other = (d', Ok tt) -> unique_names (names d) -> unique_names (names other) ->
  (at_name d n = Ok nc -> at_name d' n = Ok nc)
  /\ (In nc (elems other) -> nname nc = n -> n <> [] -> at_name d' n = Ok nc).
Proof.
  intros d other d' n nc L H U1 U2. pose proof (C30_bind_lookup _ _ _ _ L H) as L'.
  pose proof L as L0. apply lookup_inv in L0. destruct L0 as [_ C].
  pose proof (bind_unique _ _ _ _ C U1 U2 H) as U'.
  destruct (bind_Ok_elems _ _ _ H) as (E & _).
  split.
  - intros A. destruct (proj1 (L n) _ A) as (I1 & I2 & I3). subst n.
    apply lookup_at; auto. rewrite E. apply in_or_app. auto.
  - intros I1 <- I3. apply lookup_at; auto. rewrite E. apply in_or_app. auto.
Qed.
Print Assumptions C32_bind_keeps_lookup.

Example C32_ex :
  let d := mkDf 2 [mkN c_a k12] [(c_a, 0)] in
  bind d (ctor_named (mkN c_a k34)) = (d, Throw LogicError)
  /\ bind d (ctor_named (mkN c_b k567)) = (d, Throw LogicError)
  /\ bind d (ctor_named (mkN c_b k34)) = (mkDf 2 [mkN c_a k12; mkN c_b k34] [(c_a, 0); (c_b, 1)], Ok tt).
Proof. repeat split. Qed.
