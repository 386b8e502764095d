(** * ThrowsProofs: the throwing build compared with the aborting one.  Specification and lemmas. *)

From Coq Require Import ZArith List Bool Lia Arith.
From Verif Require Import Base Spec Desc Slice SliceSpec Expr ExprSpec Numeric ArrAssign Lemmas DescProofs ViewProofs RunProofs ViewThms ExprProofs ExprThms ExprSeq Builds Throws.
Import ListNotations.
Open Scope Z_scope.

(** ** specification *)
(** The throwing build does exactly what the checked build does, or it throws [std::logic_error] where the checked build stops.
    It may also stop there ([std::terminate]); that it does not is said separately. *)
Definition throws_instead {A} (checked throwing : outcome A) : Prop :=
  throwing = checked \/ (checked = Abort /\ throwing = Throw LogicError).
(** The same without stopping: every failed check is an exception. *)
Definition as_exception {A} (checked : outcome A) : outcome A := match checked with Abort => Throw LogicError | _ => checked end.

(** ** lemmas *)
Lemma ti_refl {A} (u : outcome A) : throws_instead u u.
Proof. now left. Qed.
Lemma ti_bind {A B} (c t : outcome A) (f g : A -> outcome B) : throws_instead c t -> (forall a, throws_instead (f a) (g a)) -> throws_instead (bindO c f) (bindO t g).
Proof. intros [->|[-> ->]] H; [destruct c; cbn; try apply ti_refl; apply H|right; auto]. Qed.
Lemma ti_assert b : throws_instead (dassert true b) (tassert b).
Proof. destruct b; [left|right]; auto. Qed.
Lemma ti_mapO {A B} (f g : A -> outcome B) : (forall a, throws_instead (f a) (g a)) -> forall l, throws_instead (mapO f l) (mapO g l).
Proof. intros H. induction l as [|a l IH]; cbn; [apply ti_refl|]. apply ti_bind; auto. intros b. apply ti_bind; auto. intros r. apply ti_refl. Qed.
Lemma ti_foldO {S A} (f g : S -> A -> outcome S) : (forall s a, throws_instead (f s a) (g s a)) -> forall l s, throws_instead (foldO f l s) (foldO g l s).
Proof. intros H. induction l as [|a l IH]; intros s; cbn; [apply ti_refl|]. apply ti_bind; auto. Qed.
Lemma ti_noexcept {A} (c t : outcome A) : (forall e, c <> Throw e) -> throws_instead c t -> noexceptO t = c.
Proof. intros N [->|[-> ->]]; [|reflexivity]. destruct c; try reflexivity. now contradiction (N e). Qed.
Lemma ti_exception {A} (c t : outcome A) : throws_instead c t -> t <> Abort -> t = as_exception c.
Proof. intros [->|[-> ->]] N; [|reflexivity]. destruct c; try reflexivity. congruence. Qed.

(** Functions that do not throw. *)
Definition nothrow {A} (c : outcome A) : Prop := forall e, c <> Throw e.
Lemma nt_bind {A B} (c : outcome A) (f : A -> outcome B) : nothrow c -> (forall a, nothrow (f a)) -> nothrow (bindO c f).
Proof. intros H1 H2 e. destruct c; cbn; try discriminate; [apply H2|]. now contradiction (H1 e0). Qed.
Ltac ntd := let e := fresh in intros e; discriminate.
Lemma nt_mapO {A B} (f : A -> outcome B) : (forall a, nothrow (f a)) -> forall l, nothrow (mapO f l).
Proof. intros H. induction l; cbn; [ntd|]. apply nt_bind; auto. intros. apply nt_bind; auto. ntd. Qed.
Lemma nt_assert chk b : nothrow (dassert chk b).
Proof. intros e. unfold dassert. destruct (chk && negb b); discriminate. Qed.
Lemma nt_get {A} (l : list A) i : nothrow (get l i).
Proof. intros e. unfold get. destruct (_ && _); [|discriminate]. destruct (nth_error _ _); discriminate. Qed.
Lemma nt_incr : forall es ix, nothrow (incr es ix).
Proof.
  induction es as [|e es IH]; intros [|i ix]; cbn; try ntd; destruct es; try ntd;
    repeat match goal with |- nothrow (if ?c then _ else _) => destruct c | |- nothrow (let* _ := _ in _) => apply nt_bind; intros end;
    try ntd; try apply IH.
Qed.
Lemma nt_it_next d it : nothrow (it_next d it).
Proof. unfold it_next. destruct it; [apply nt_bind; [apply nt_incr|ntd]|]. destruct (sd_strs d) as [|? [|]]; ntd. Qed.
Lemma nt_walk_from d : forall fuel it, nothrow (sd_walk_from fuel d it).
Proof.
  induction fuel as [|f IH]; intros it; cbn; [ntd|]. destruct (it_eqb _ _); [ntd|].
  apply nt_bind; [apply nt_it_next|]. intros a. apply nt_bind; [apply IH|ntd].
Qed.
Lemma nt_infer chk s es : nothrow (sd_infer chk s es).
Proof. unfold sd_infer. destruct es as [|e [|e2 es]]; try ntd; (apply nt_bind; [apply nt_assert|ntd]). Qed.
Lemma nt_mk_vec chk es idx : nothrow (mk_vec chk es idx).
Proof. unfold mk_vec. apply nt_bind; [apply nt_infer|]. intros d. apply nt_bind; [apply nt_assert|ntd]. Qed.
Lemma nt_m_map chk m i : nothrow (m_map chk m i).
Proof. unfold m_map. destruct m; [ntd|]. apply nt_bind; [apply nt_assert|]. intros _. apply nt_get. Qed.

Create HintDb ti.
Ltac ti := repeat first
  [ apply ti_assert
  | progress intros
  | solve [auto with ti]
  | apply ti_bind | apply ti_mapO | apply ti_foldO
  | match goal with
    | |- throws_instead (match ?x with _ => _ end) (match ?x with _ => _ end) => destruct x
    | |- throws_instead (if ?x then _ else _) (if ?x then _ else _) => destruct x
    end
  | apply ti_refl ].

Lemma infer_eq s es : t_sd_infer s es = sd_infer true s es.
Proof. unfold t_sd_infer. apply ti_noexcept; [apply (nt_infer true)|]. unfold sd_infer. ti. Qed.
Lemma ti_infer s es : throws_instead (sd_infer true s es) (t_sd_infer s es).
Proof. rewrite infer_eq. apply ti_refl. Qed.
#[export] Hint Resolve ti_infer : ti.
Lemma ti_mk_vec es idx : throws_instead (mk_vec true es idx) (t_mk_vec es idx).
Proof. unfold mk_vec, t_mk_vec. ti. Qed.
Lemma ti_m_map m i : throws_instead (m_map true m i) (t_m_map m i).
Proof. unfold m_map, t_m_map. ti. Qed.
#[export] Hint Resolve ti_mk_vec ti_m_map : ti.
Lemma m_drop_first_eq fuel m i : t_m_drop_first fuel m i = m_drop_first true fuel m i.
Proof.
  destruct m as [d|d idx]; [reflexivity|]. unfold t_m_drop_first, m_drop_first. apply ti_noexcept; [|ti].
  apply nt_bind; [apply nt_walk_from|]. intros ps. apply nt_bind; [apply nt_mapO; intros; apply nt_m_map|]. intros. apply nt_mk_vec.
Qed.
Lemma ti_m_drop_first fuel m i : throws_instead (m_drop_first true fuel m i) (t_m_drop_first fuel m i).
Proof. rewrite m_drop_first_eq. apply ti_refl. Qed.
#[export] Hint Resolve ti_m_drop_first : ti.
Lemma ti_do_slice : forall es start ss args, throws_instead (do_slice true start es ss args) (t_do_slice start es ss args).
Proof. induction es as [|e es IH]; intros start ss args; destruct args as [|[]], ss; cbn [do_slice t_do_slice]; ti. Qed.
#[export] Hint Resolve ti_do_slice : ti.
Lemma ti_do_ind d : forall rargs ix acc, throws_instead (do_ind true d rargs ix acc) (t_do_ind d rargs ix acc).
Proof. induction rargs as [|a rest IH]; intros ix acc; cbn [do_ind t_do_ind]; ti. Qed.
#[export] Hint Resolve ti_do_ind : ti.
Lemma ti_array_slice fuel m args : throws_instead (array_slice true fuel m args) (t_array_slice fuel m args).
Proof. unfold array_slice, indirect_slicing, default_slicing, t_array_slice, t_indirect_slicing, t_default_slicing. ti. Qed.
#[export] Hint Resolve ti_array_slice : ti.
Lemma ti_proxy_at fuel off m args nm r : throws_instead (proxy_at true fuel off m args nm r) (t_proxy_at fuel off m args nm r).
Proof. unfold proxy_at, t_proxy_at. ti. Qed.
#[export] Hint Resolve ti_proxy_at : ti.
Lemma ti_op_index fuel s u : throws_instead (op_index true fuel s u) (t_op_index fuel s u).
Proof.
  destruct s as [p|off es|off es M|off m|off m args]; cbn [op_index t_op_index]; [ti| | | |].
  - unfold ref_index, ref_abs, ref_strided, t_ref_index, t_ref_abs, t_ref_strided. ti.
  - unfold every_index, every_at, t_every_index, t_every_at. ti.
  - unfold view_index, t_view_index. ti.
  - unfold proxy_index, t_proxy_index. ti.
Qed.
#[export] Hint Resolve ti_op_index : ti.
Lemma ti_run fuel us s : throws_instead (run true fuel s us) (t_run fuel s us).
Proof. unfold run, t_run. ti. Qed.
#[export] Hint Resolve ti_run : ti.
Lemma ti_drop_ext D es : throws_instead (drop_one_level_extents true D es) (t_drop_one_level_extents D es).
Proof. unfold drop_one_level_extents, t_drop_one_level_extents. ti. Qed.
#[export] Hint Resolve ti_drop_ext : ti.
Lemma ti_drop_to D s : throws_instead (drop_to true D s) (t_drop_to D s).
Proof. unfold drop_to, t_drop_to, sd_drop, t_sd_drop. ti. Qed.
#[export] Hint Resolve ti_drop_to : ti.
Lemma ti_drop_to_scalar s : throws_instead (drop_to_scalar true s) (t_drop_to_scalar s).
Proof. unfold drop_to_scalar, t_drop_to_scalar. ti. Qed.
Lemma ti_axis_at fuel axis s i : throws_instead (axis_at true fuel axis s i) (t_axis_at fuel axis s i).
Proof. unfold axis_at, t_axis_at. ti. Qed.
#[export] Hint Resolve ti_axis_at : ti.
Lemma ti_axis_items fuel axis s : throws_instead (axis_items true fuel axis s) (t_axis_items fuel axis s).
Proof. unfold axis_items, t_axis_items. ti. Qed.

(** ** when a failed check ends the program *)
Lemma tassert_na b : tassert b <> Abort.
Proof. unfold tassert. destruct b; discriminate. Qed.
#[export] Hint Resolve tassert_na : na.
Lemma t_do_slice_na : forall es start ss args, t_do_slice start es ss args <> Abort.
Proof. induction es as [|e es IH]; intros start ss args; destruct args as [|[]], ss; cbn [t_do_slice]; na. Qed.
Lemma t_do_ind_na d : forall rargs ix acc, t_do_ind d rargs ix acc <> Abort.
Proof. induction rargs as [|a rest IH]; intros ix acc; cbn [t_do_ind]; na. Qed.
Lemma t_m_map_na m i : t_m_map m i <> Abort.
Proof. unfold t_m_map. na. Qed.
#[export] Hint Resolve t_do_slice_na t_do_ind_na t_m_map_na : na.
Lemma tassert_Ok b u : tassert b = Ok u -> b = true.
Proof. unfold tassert. destruct b; [auto|discriminate]. Qed.

Definition nonzero (es : list Z) : Prop := Forall (fun e => e <> 0) es.
Lemma t_infer_na s es : nonzero es \/ length es = 1%nat -> t_sd_infer s es <> Abort.
Proof.
  intros H. unfold t_sd_infer. destruct es as [|e [|e2 es]]; try discriminate. destruct H as [H|H]; [|discriminate].
  assert (E : forallb (fun e => negb (e =? 0)) (e :: e2 :: es) = true).
  { apply forallb_forall. intros x Hx. unfold nonzero in H. rewrite Forall_forall in H. specialize (H x Hx). destruct (Z.eqb_spec x 0); [contradiction|reflexivity]. }
  rewrite E. discriminate.
Qed.
Lemma t_mk_vec_na es idx : nonzero es \/ length es = 1%nat -> t_mk_vec es idx <> Abort.
Proof. intros H. unfold t_mk_vec. apply na_bind; [now apply t_infer_na|]. na. Qed.

Lemma t_do_slice_nonzero : forall es start ss args r, t_do_slice start es ss args = Ok r -> nonzero (snd (fst r)).
Proof.
  induction es as [|e es IH]; intros start ss args r H; destruct args as [|[] args], ss as [|s0 ss]; cbn [t_do_slice] in H; try discriminate.
  - injection H as <-. constructor.
  - apply bindO_Ok_inv in H as (? & _ & H). apply bindO_Ok_inv in H as ([[? ?] ?] & H1 & H). injection H as <-. apply IH in H1. cbn in *. constructor; [lia|auto].
  - apply bindO_Ok_inv in H as (? & _ & H). apply bindO_Ok_inv in H as (? & Hn & H). apply bindO_Ok_inv in H as (? & _ & H).
    apply bindO_Ok_inv in H as ([[? ?] ?] & H1 & H). injection H as <-. apply IH in H1. apply tassert_Ok, Z.ltb_lt in Hn. cbn in *. constructor; [lia|auto].
Qed.

(** The dimensions already treated have a non-zero extent. *)
Definition nonempty_rng (r : rarg) : Prop := match r with RRng [] => False | _ => True end.
Definition from_nz (k : nat) (es : list Z) : Prop := forall j, (k <= j < length es)%nat -> nth j es 0 <> 0.
Lemma nth_upd {A} (l : list A) i v j d : (i < length l)%nat -> nth j (upd_nat l i v) d = if Nat.eqb j i then v else nth j l d.
Proof. revert i j. induction l as [|a l IH]; intros [|i] [|j] H; cbn in *; try lia; auto. rewrite IH by lia. reflexivity. Qed.
Lemma upd_nat_len {A} : forall (l : list A) i v, length (upd_nat l i v) = length l.
Proof. induction l; intros [|i] v; cbn; auto. Qed.
Lemma from_nz_upd k es v : (k < length es)%nat -> from_nz (S k) es -> v <> 0 -> from_nz k (upd_nat es k v).
Proof. intros Hk H Hv j Hj. rewrite upd_nat_len in Hj. rewrite nth_upd by auto. destruct (Nat.eqb_spec j k); [auto|]. apply H. lia. Qed.

(** One pass over the remaining dimensions: they become non-zero, the others stay non-zero. *)
Definition passes (k : nat) (es es' : list Z) : Prop :=
  length es' = length es /\ (forall j, (k <= j)%nat -> nth j es' 0 = nth j es 0) /\ (forall j, (j < k)%nat -> nth j es' 0 <> 0).
Lemma foldO_passes {A} (f : list Z * list Z -> A -> outcome (list Z * list Z)) k : (forall s a s', f s a = Ok s' -> (k <= length (fst s))%nat -> passes k (fst s) (fst s')) ->
  forall l s s', foldO f l s = Ok s' -> l <> [] -> (k <= length (fst s))%nat -> passes k (fst s) (fst s').
Proof.
  intros Hf. assert (G : forall l s s', foldO f l s = Ok s' -> (k <= length (fst s))%nat -> (forall j, (j < k)%nat -> nth j (fst s) 0 <> 0) -> passes k (fst s) (fst s')).
  { induction l as [|a l IH]; intros s s' H L N; cbn in H; [injection H as <-; repeat split; auto|].
    apply bindO_Ok_inv in H as (s1 & H1 & H2). apply Hf in H1; auto. destruct H1 as (P1 & P2 & P3).
    destruct (IH s1 s' H2 ltac:(lia) P3) as (Q1 & Q2 & Q3). split; [lia|]. split; auto. intros j Hj. rewrite Q2, P2; auto. }
  intros [|a l] s s' H N L; [contradiction|]. cbn in H. apply bindO_Ok_inv in H as (s1 & H1 & H2). apply Hf in H1; auto. destruct H1 as (P1 & P2 & P3).
  destruct (G l s1 s' H2 ltac:(lia) P3) as (Q1 & Q2 & Q3). split; [lia|]. split; auto. intros j Hj. rewrite Q2, P2; auto.
Qed.
Lemma t_do_ind_passes d : forall rargs ix acc acc', t_do_ind d rargs ix acc = Ok acc' -> Forall nonempty_rng rargs -> (length rargs <= length (fst acc))%nat ->
  passes (length rargs) (fst acc) (fst acc').
Proof.
  induction rargs as [|a rest IH]; intros ix acc acc' H HF L; cbn [t_do_ind] in H.
  - injection H as <-. cbn. repeat split; auto. intros; lia.
  - inversion HF as [|? ? Ha Hrest]; subst. cbn [length] in *.
    assert (K : forall v (s' : list Z * list Z), v <> 0 -> passes (length rest) (upd_nat (fst acc) (length rest) v) (fst s') -> passes (S (length rest)) (fst acc) (fst s')).
    { intros v s' Hv (P1 & P2 & P3). rewrite upd_nat_len in P1. split; [auto|]. split.
      - intros j Hj. rewrite P2 by lia. rewrite nth_upd by lia. destruct (Nat.eqb_spec j (length rest)); [lia|auto].
      - intros j Hj. destruct (Nat.eq_dec j (length rest)) as [->|]; [|apply P3; lia]. rewrite P2 by lia. rewrite nth_upd by lia. rewrite Nat.eqb_refl. exact Hv. }
    destruct a as [i|s n t|l].
    + apply bindO_Ok_inv in H as (? & _ & H). apply IH in H; cbn [fst]; auto; [|rewrite upd_nat_len; lia]. cbn [fst] in H. eapply K; [|exact H]. lia.
    + apply bindO_Ok_inv in H as (? & _ & H). apply bindO_Ok_inv in H as (? & Hn & H). apply bindO_Ok_inv in H as (? & _ & H). apply tassert_Ok, Z.ltb_lt in Hn.
      apply (foldO_passes _ (length rest)) in H; cbn [fst] in *.
      * eapply K; [|exact H]. lia.
      * intros s0 k s' Hs Ls. apply IH in Hs; auto.
      * destruct (Z.to_nat n) eqn:En; [lia|]. discriminate.
      * rewrite upd_nat_len. lia.
    + apply bindO_Ok_inv in H as (? & _ & H). assert (l <> []) by (destruct l; [contradiction|discriminate]).
      apply (foldO_passes _ (length rest)) in H; cbn [fst] in *; auto.
      * eapply K; [|exact H]. destruct l; [contradiction|]. cbn [length]. lia.
      * intros s0 k s' Hs Ls. apply IH in Hs; auto.
      * rewrite upd_nat_len. lia.
Qed.
Lemma t_indirect_nonzero d args es ps : t_indirect_slicing d args = Ok (es, ps) -> Forall nonempty_rng args -> length args = length (sd_exts d) -> nonzero es.
Proof.
  intros H HF L. unfold t_indirect_slicing in H. apply t_do_ind_passes in H; [|now apply Forall_rev|cbn; rewrite rev_length, map_length; lia].
  cbn [fst] in H. rewrite rev_length in H. destruct H as (P1 & _ & P3). rewrite map_length in P1. apply Forall_nth. intros i dflt Hi.
  rewrite (nth_indep _ _ 0) by auto. apply P3. lia.
Qed.
Lemma t_array_slice_na fuel m args : Forall nonempty_rng args -> length args = length (sd_exts (m_desc m)) -> t_array_slice fuel m args <> Abort.
Proof.
  intros HF L. unfold t_array_slice. destruct (existsb is_rng args).
  - destruct (t_indirect_slicing (m_desc m) args) as [[es ps]| | | |] eqn:E; cbn [bindO]; try discriminate; [|now apply t_do_ind_na in E].
    pose proof (t_indirect_nonzero _ _ _ _ E HF L). destruct m; [apply t_mk_vec_na; auto|]. apply na_bind; [na|]. intros idx'. apply t_mk_vec_na; auto.
  - unfold t_default_slicing. destruct (t_do_slice _ _ _ args) as [[[a b] c]| | | |] eqn:E; cbn [bindO]; try discriminate; [|now apply t_do_slice_na in E].
    destruct m; [discriminate|]. apply na_bind; [na|]. intros p. apply na_bind; [na|]. intros idx'. apply t_mk_vec_na. left. apply (t_do_slice_nonzero _ _ _ _ _ E).
Qed.

(** Subscripts: an index is not negative, a range of indexes is not empty. *)
Definition proper_arg (u : uarg) : Prop := match u with UIdx i => 0 <= i | URange l => l <> [] | _ => True end.
Lemma resolve_proper u e r : proper_arg u -> resolve u e = Ok r -> nonempty_rng r.
Proof.
  destruct u; cbn; intros P H; try (injection H as <-; exact I).
  - apply bindO_Ok_inv in H as ([[? ?] ?] & _ & H). injection H as <-. exact I.
  - injection H as <-. destruct l; [contradiction|exact I].
Qed.

Definition left_dims (s : st) : nat :=
  match s with
  | SElem _ => 0
  | SRef _ es => length es
  | SEvery _ es M => length es - M
  | SView _ m => length (sd_exts (m_desc m))
  | SProxy _ m args => length (sd_exts (m_desc m)) - length args
  end.
Definition tame (fuel : nat) (s : st) : Prop :=
  match s with
  | SElem _ => True
  | SRef _ es => nonzero es
  | SEvery _ es M => nonzero es /\ (0 < M < length es)%nat
  | SView _ m => match m with MId _ => True | MVec _ _ => exists es ps, minv m es ps /\ (Z.to_nat (zprod es) < fuel)%nat end
  | SProxy _ m args => Forall nonempty_rng args /\ (0 < length args < length (sd_exts (m_desc m)))%nat
  end.
(** Either the chain is at its end or the invariant still holds. *)
Definition onwards (fuel : nat) (s s' : st) : Prop := left_dims s = 1%nat \/ (tame fuel s' /\ left_dims s' = (left_dims s - 1)%nat).

Lemma t_proxy_at_tame fuel off m args nm r : Forall nonempty_rng args -> nonempty_rng r -> (length args < length (sd_exts (m_desc m)))%nat ->
  t_proxy_at fuel off m args nm r <> Abort /\
  forall s', t_proxy_at fuel off m args nm r = Ok s' -> (length (sd_exts (m_desc m)) - length args = 1)%nat \/ (tame fuel s' /\ left_dims s' = (length (sd_exts (m_desc m)) - length args - 1)%nat).
Proof.
  intros HF Hr L. unfold t_proxy_at. destruct (Nat.eqb_spec (S (length args)) (length (sd_exts (m_desc m)))).
  - split; [|intros; left; lia]. apply na_bind; [|discriminate]. apply t_array_slice_na; [apply Forall_app; auto|rewrite app_length; cbn; lia].
  - destruct nm; [split; discriminate|]. split; [discriminate|]. intros s' H. injection H as <-. right. cbn. rewrite app_length. cbn.
    split; [|lia]. split; [apply Forall_app; auto|lia].
Qed.

Lemma t_op_index_tame fuel s u : tame fuel s -> (1 <= left_dims s)%nat -> proper_arg u ->
  t_op_index fuel s u <> Abort /\ forall s', t_op_index fuel s u = Ok s' -> onwards fuel s s'.
Proof.
  intros T L P. destruct s as [p|off es|off es M|off m|off m args]; cbn [left_dims] in L; [lia| | | |]; cbn [t_op_index tame] in *.
  - (* contiguous *)
    assert (I : forall s, t_sd_infer s es <> Abort) by (intros; apply t_infer_na; auto).
    assert (D : forall s d, t_sd_infer s es = Ok d -> sd_exts d = es).
    { intros s d. rewrite infer_eq. unfold sd_infer. destruct es as [|a [|b es']]; intros H; try (apply bindO_Ok_inv in H as (? & _ & H)); injection H as <-; reflexivity. }
    assert (C : length es = 1%nat \/ (1 < length es)%nat) by lia. destruct C as [C|C].
    { split; [|intros; left; exact C].
      assert (S1 : forall s n, t_ref_abs off es s n <> Abort).
      { intros s n. unfold t_ref_abs. destruct es as [|a [|b es']]; try discriminate C. na. }
      assert (S2 : forall s n t, t_ref_strided fuel off es s n t <> Abort).
      { intros s n t. unfold t_ref_strided. rewrite C. cbn [Nat.eqb]. destruct (t_sd_infer 0 es) as [d| | | |] eqn:E; cbn [bindO]; try discriminate; [|now apply I in E].
        apply na_bind; [|discriminate]. apply t_array_slice_na; [repeat constructor|]. cbn [m_desc]. rewrite (D _ _ E), C. reflexivity. }
      unfold t_ref_index. rewrite C. cbn [Nat.eqb]. destruct u; auto; try solve [na]. }
    assert (S1 : forall s n, t_ref_abs off es s n <> Abort /\ forall s', t_ref_abs off es s n = Ok s' -> onwards fuel (SRef off es) s').
    { intros s n. unfold t_ref_abs. destruct es as [|a [|b es']]; try (cbn in C; lia). split; [apply na_bind; [apply I|discriminate]|].
      intros s' H. apply bindO_Ok_inv in H as (d & E & H). injection H as <-. right. cbn. rewrite (D _ _ E). cbn. split; [|lia]. split; [repeat constructor|lia]. }
    assert (S2 : forall s n t, t_ref_strided fuel off es s n t <> Abort /\ forall s', t_ref_strided fuel off es s n t = Ok s' -> onwards fuel (SRef off es) s').
    { intros s n t. unfold t_ref_strided. replace (Nat.eqb (length es) 1) with false by (symmetry; apply Nat.eqb_neq; lia). split; [apply na_bind; [apply I|discriminate]|].
      intros s' H. apply bindO_Ok_inv in H as (d & E & H). injection H as <-. right. cbn. rewrite (D _ _ E). split; [|lia]. split; [repeat constructor|lia]. }
    unfold t_ref_index. replace (Nat.eqb (length es) 1) with false by (symmetry; apply Nat.eqb_neq; lia). destruct u as [i|s n|s n t| |s m|s m t|l].
    + split; [apply na_bind; [na|]; intros _; apply na_bind; [apply I|discriminate]|]. intros s' H. apply bindO_Ok_inv in H as (? & _ & H).
      apply bindO_Ok_inv in H as (d & E & H). injection H as <-. right. split; [exact Logic.I|]. cbn. rewrite (D _ _ E). destruct es; cbn in *; lia.
    + apply S1.
    + apply S2.
    + split; [discriminate|]. intros s' H. injection H as <-. right. cbn. split; [split; auto; lia|lia].
    + destruct (eval_bounded s m (hd 0 es)). apply S1.
    + destruct (eval_bounded_strided s m t (hd 0 es)) as [[[a b] c]| | | |] eqn:E; cbn [bindO]; try (split; discriminate); [apply S2|]. now apply na_bounded in E.
    + split; [apply na_bind; [apply I|discriminate]|]. intros s' H. apply bindO_Ok_inv in H as (d & E & H). injection H as <-. right. cbn. rewrite (D _ _ E).
      split; [|lia]. split; [|lia]. constructor; [|constructor]. destruct l; [contradiction|exact Logic.I].
  - (* every proxy *)
    destruct T as [T TM].
    assert (K : forall r, nonempty_rng r -> t_every_at fuel off es M r <> Abort /\ forall s', t_every_at fuel off es M r = Ok s' -> onwards fuel (SEvery off es M) s').
    { intros r Hr. unfold t_every_at. destruct (t_sd_infer 0 es) as [d| | | |] eqn:E; cbn [bindO]; try (split; discriminate); [|now apply t_infer_na in E; auto].
      assert (D : sd_exts d = es).
      { rewrite infer_eq in E. unfold sd_infer in E. destruct es as [|a [|b es']]; try (apply bindO_Ok_inv in E as (? & _ & E)); injection E as <-; reflexivity. }
      destruct (t_proxy_at_tame fuel off (MId d) (map (fun e => RSl 0 e 1) (firstn M es)) (negb (is_rng r)) r) as [A B]; auto.
      - apply Forall_forall. intros x Hx. apply in_map_iff in Hx as (? & <- & _). exact Logic.I.
      - cbn [m_desc]. rewrite D, map_length, firstn_length. lia.
      - split; auto. intros s' H. apply B in H. unfold onwards. cbn [left_dims m_desc] in *. rewrite D, map_length, firstn_length, Nat.min_l in H by lia. exact H. }
    unfold t_every_index. destruct (Nat.eqb_spec (S M) (length es)) as [EM|NM].
    + (* the last dimension *) split; [|intros; left; cbn; lia]. destruct u; try solve [na]; destruct (resolve _ _) as [r| | | |] eqn:Er; cbn [bindO]; try discriminate;
        try (now apply na_resolve in Er); apply K; eapply resolve_proper; eauto.
    + destruct u as [i|s n|s n t| |s m|s m t|l]; try (split; discriminate); try (apply K; exact Logic.I);
        try (destruct (resolve _ _) as [r| | | |] eqn:Er; cbn [bindO]; try (split; discriminate); try (now apply na_resolve in Er); apply K; eapply resolve_proper; eauto).
      split; [discriminate|]. intros s' H. injection H as <-. right. cbn. split; [split; auto; lia|lia].
  - (* view *)
    assert (K : forall r, nonempty_rng r -> (if Nat.eqb (length (sd_exts (m_desc m))) 1 then let* m' := t_array_slice fuel m [r] in Ok (SView off m') else Ok (SProxy off m [r])) <> Abort /\
      forall s', (if Nat.eqb (length (sd_exts (m_desc m))) 1 then let* m' := t_array_slice fuel m [r] in Ok (SView off m') else Ok (SProxy off m [r])) = Ok s' -> onwards fuel (SView off m) s').
    { intros r Hr. destruct (Nat.eqb_spec (length (sd_exts (m_desc m))) 1) as [E|E].
      - split; [|intros; left; exact E]. apply na_bind; [|discriminate]. apply t_array_slice_na; [repeat constructor; auto|cbn; lia].
      - split; [discriminate|]. intros s' H. injection H as <-. right. cbn. split; [split; [repeat constructor; auto|lia]|lia]. }
    unfold t_view_index. destruct u as [i|s n|s n t| |s q|s q t|l];
      try (destruct (resolve _ _) as [r| | | |] eqn:Er; cbn [bindO]; try (split; discriminate); try (now apply na_resolve in Er); apply K; eapply resolve_proper; eauto).
    + destruct (tassert (i <? hd 0 (sd_exts (m_desc m)))) as [[]| | | |] eqn:Et; cbn [bindO]; try (split; discriminate); [|now apply tassert_na in Et].
      apply tassert_Ok, Z.ltb_lt in Et. destruct (Nat.eqb_spec (length (sd_exts (m_desc m))) 1) as [E|E].
      { split; [na|intros; left; exact E]. }
      rewrite m_drop_first_eq. destruct m as [d|d idx].
      * cbn. split; [discriminate|]. intros s' H. injection H as <-. right. split; [exact Logic.I|]. cbn in *. destruct (sd_exts d); cbn in *; lia.
      * destruct T as (es & ps & Hm & Hf). assert (He : sd_exts d = es) by apply Hm. cbn [m_desc] in *. rewrite He in *. destruct es as [|e es]; [cbn in L; lia|]. cbn [hd] in Et.
        destruct es as [|e2 es]; [cbn in E; lia|].
        destruct (m_drop_first_ok true fuel _ _ _ _ i Hm ltac:(discriminate) (conj P Et) Hf) as (m' & Em & I').
        rewrite Em. cbn [bindO]. split; [discriminate|]. intros s' H. injection H as <-. right. unfold left_dims. cbn [m_desc].
        assert (Hx : sd_exts (m_desc m') = e2 :: es) by apply I'. rewrite Hx. split; [|rewrite He; cbn; lia]. cbn [tame]. destruct m'; [exact Logic.I|]. eexists _, _. split; [exact I'|].
        pose proof (zprod_pos (e2 :: es) ltac:(apply I')). assert (0 < e) by (destruct Hm as (_ & Hp & _); inversion Hp; auto). cbn [zprod] in *.
        change (zprod (e :: e2 :: es)) with (e * zprod (e2 :: es)) in Hf. apply Nat.le_lt_trans with (2 := Hf). apply Z2Nat.inj_le; nia.
    + destruct (Nat.eqb_spec (length (sd_exts (m_desc m))) 1) as [E|E].
      * split; [discriminate|]. intros; left; exact E.
      * split; [discriminate|]. intros s' H. injection H as <-. right. cbn. split; [split; [repeat constructor|lia]|lia].
  - (* proxy *)
    destruct T as [HF HL]. unfold t_proxy_index. destruct (resolve _ _) as [r| | | |] eqn:Er; cbn [bindO]; try (split; discriminate); try (now apply na_resolve in Er).
    apply resolve_proper in Er; auto. destruct (t_proxy_at_tame fuel off m args (by_name u) r HF Er ltac:(lia)) as [A B]. split; auto.
Qed.

Lemma t_run_na fuel : forall us s, tame fuel s -> (length us <= left_dims s)%nat -> Forall proper_arg us -> t_run fuel s us <> Abort.
Proof.
  induction us as [|u us IH]; intros s T L HF; [discriminate|]. inversion HF; subst. cbn [length] in L.
  destruct (t_op_index_tame fuel s u T ltac:(lia) ltac:(auto)) as [A B]. unfold t_run. cbn [foldO].
  destruct (t_op_index fuel s u) as [s'| | | |]; cbn [bindO]; try discriminate; [|congruence]. destruct (B s' eq_refl) as [E|[T' E]].
  - destruct us; [discriminate|cbn in L; lia].
  - apply IH; auto. lia.
Qed.

(** ** views reached by valid subscripts *)
Lemma sinv_tame fuel s v : sinv s v -> (Z.to_nat (zprod (fst v)) < fuel)%nat -> tame fuel s /\ left_dims s = length (fst v).
Proof.
  destruct s as [p|off es|off es M|off m|off m args]; cbn [sinv tame left_dims]; try contradiction.
  - intros (-> & (_ & G & _) & _) _. split; [|reflexivity]. unfold nonzero. eapply Forall_impl; [|exact G]. cbn. lia.
  - intros (ps & Hm & _) Hf. split; [|f_equal; apply Hm]. destruct m; [exact Logic.I|]. eauto.
Qed.
Lemma ti_Ok {A} (c t : outcome A) a : throws_instead c t -> c = Ok a -> t = Ok a.
Proof. intros [->|[-> _]] H; [exact H|discriminate]. Qed.
Lemma ti_Abort {A} (c t : outcome A) : throws_instead c t -> c = Abort -> t <> Abort -> t = Throw LogicError.
Proof. intros [->|[_ ->]] H N; [contradiction|reflexivity]. Qed.
Lemma ti_steps fuel steps s : throws_instead (foldO (run true fuel) steps s) (foldO (t_run fuel) steps s).
Proof. ti. Qed.

Lemma exceptions_reached es steps us : good_shape es -> ok_steps (afull es) steps ->
  (length us <= length (fst (aselects (afull es) steps)))%nat -> Forall proper_arg us ->
  exists fuel0, forall fuel, (fuel0 <= fuel)%nat -> exists s,
    foldO (run true fuel) steps (SRef 0 es) = Ok s /\ foldO (t_run fuel) steps (SRef 0 es) = Ok s /\ t_run fuel s us = as_exception (run true fuel s us).
Proof.
  intros G H L P. exists (Nat.max (steps_fuel (afull es) steps) (S (Z.to_nat (zprod (fst (aselects (afull es) steps)))))). intros fuel Hf.
  destruct (reachable_aux true (zprod es) steps fuel (SRef 0 es) (afull es) (sinv_full es G)) as [s [E [I [F N]]]]; auto; try lia.
  { cbn. apply Forall_forall. intros p Hp. apply in_iota in Hp. exact Hp. }
  exists s. split; [exact E|]. split; [exact (ti_Ok _ _ _ (ti_steps fuel steps _) E)|].
  destruct (sinv_tame fuel s _ I ltac:(lia)) as [T LD]. apply ti_exception; [apply ti_run|]. apply t_run_na; auto. lia.
Qed.

(** ** functions without subscripts *)
Lemma ti_reshape s es : throws_instead (reshape_ref true s es) (t_reshape_ref s es).
Proof. unfold reshape_ref, t_reshape_ref. destruct s; try apply ti_refl. left. unfold dassert, tassert. destruct (_ =? _); reflexivity. Qed.
Lemma t_drop_to_na D s : t_drop_to D s <> Abort.
Proof. unfold t_drop_to, t_drop_one_level_extents, t_sd_drop. destruct s as [| | |? []|]; na. Qed.
Lemma t_drop_to_scalar_na s : t_drop_to_scalar s <> Abort.
Proof. unfold t_drop_to_scalar. na. Qed.
Lemma ti_seq a b c : throws_instead (seq_model true a b c) (t_seq_model a b c).
Proof. unfold seq_model, t_seq_model. ti. Qed.
Lemma t_seq_na a b c : t_seq_model a b c <> Abort.
Proof. unfold t_seq_model. na. Qed.

Lemma t_axis_items_na fuel axis s : tame fuel s -> (forall es, dims s = Some es -> length es = left_dims s) -> t_axis_items fuel axis s <> Abort.
Proof.
  intros T D. unfold t_axis_items. destruct (dims s) as [es|] eqn:E; [|discriminate]. specialize (D es eq_refl).
  assert (A : forall i, 0 <= i -> t_axis_at fuel axis s i <> Abort).
  { intros i Hi. unfold t_axis_at. rewrite E. apply na_bind.
    - apply t_run_na; auto; [rewrite map_length, seq_length; lia|]. apply Forall_forall. intros u Hu. apply in_map_iff in Hu as (k & <- & _). destruct (Nat.eqb k axis); [exact Hi|exact Logic.I].
    - intros s'. destruct (dims s'); [|discriminate]. destruct (Nat.eqb _ _); [discriminate|apply t_drop_to_na]. }
  generalize (Z.to_nat (nth axis es 0)). intros n. generalize 0%nat. induction n as [|n IH]; intros k; cbn [seq map mapO]; [discriminate|].
  apply na_bind; [apply A; lia|]. intros b. apply na_bind; [apply IH|discriminate].
Qed.

(** ** expressions and assignments *)
Section Assign.
Context {V : Type}.
Notation mem := (@mem V).
Notation expr := (@expr V).
Implicit Types (m : mem) (e : expr).

Lemma ti_build : forall e h, throws_instead (build true e h) (t_build e h).
Proof. induction e; intros h; cbn [build t_build]; ti. Qed.
Lemma t_build_na : forall e (h : @heap V), t_build e h <> Abort.
Proof.
  assert (L : forall s, leaf_range s <> Abort) by (intros s; unfold leaf_range; na).
  induction e; intros h; cbn [t_build]; unfold t_drop_one_level_extents; na.
Qed.
Lemma t_build_eq e h : t_build e h = as_exception (build true e h).
Proof. apply ti_exception; [apply ti_build|apply t_build_na]. Qed.
Lemma t_build_ok e h r : build true e h = Ok r -> t_build e h = Ok r.
Proof. intros E. rewrite t_build_eq, E. reflexivity. Qed.
Lemma t_build_bad fuel m e h : expr_bad fuel m e -> t_build e h = Throw LogicError.
Proof. intros B. rewrite t_build_eq, (build_bad _ _ _ B). reflexivity. Qed.

Lemma t_eval_eq m e : t_eval_expr m e = as_exception (eval_expr true m e).
Proof.
  unfold t_eval_expr, eval_expr. rewrite t_build_eq. destruct (build true e []) as [r| | | |]; try reflexivity. cbn [as_exception bindO].
  assert (N : materialise (snd r) m (fst r) <> Abort); [|destruct (materialise (snd r) m (fst r)); try reflexivity; congruence].
  unfold materialise. apply na_bind; [apply na_copy_n|discriminate].
Qed.

(** An assignment in the throwing build against the checked one: the same memory when it succeeds; an exception where the checked build stops. *)
Definition assign_throws (c : outcome mem) (t : outcome unit * mem) : Prop :=
  match c with
  | Ok m' => t = (Ok tt, m')
  | Throw x => fst t = Throw x
  | Abort => fst t = Throw LogicError
  | UB => fst t = UB
  | Timeout => fst t = Timeout
  end.

Lemma array_assign_throws fuel h sid s x m : assign_throws (array_assign true fuel h sid s x m) (t_array_assign fuel h sid s x m).
Proof.
  unfold array_assign, t_array_assign. destruct (dims s) as [es|]; [|reflexivity]. unfold dassert, tassert. cbn [andb].
  destruct (Zlist_eqb (sdim x) es); cbn [negb bindO pure]; [|reflexivity]. destruct (leaf_range s) as [r| | | |] eqn:El; cbn [bindO pure]; try reflexivity; [|now apply na_leaf_range in El].
  destruct (assign_loop fuel h sid (fst r) (snd r) (sbeg x) m) as [q| | | |] eqn:Ea; cbn [bindO pure]; try reflexivity; [|now apply na_assign_loop in Ea].
  destruct (xeqb (snd q) (send x)); reflexivity.
Qed.
Lemma view_assign_throws fuel m sid s e : assign_throws (view_assign true fuel m sid s e) (t_view_assign fuel m sid s e).
Proof.
  unfold view_assign, t_view_assign. rewrite t_build_eq. destruct (build true e []) as [r| | | |]; cbn [as_exception bindO pure]; try reflexivity. apply array_assign_throws.
Qed.
Lemma view_inplace_throws fuel m sid s f e : assign_throws (let* q := view_inplace true fuel m sid s f e in Ok (fst q)) (t_view_inplace fuel m sid s f e).
Proof.
  unfold view_inplace, t_view_inplace. rewrite t_build_eq. destruct (build true e []) as [r| | | |]; cbn [as_exception bindO pure]; try reflexivity.
  destruct (dims s) as [es|]; [|reflexivity]. unfold dassert, tassert. cbn [andb]. destruct (Zlist_eqb es (sdim (fst r))); cbn [negb bindO pure]; [|reflexivity].
  destruct (leaf_range s) as [l| | | |] eqn:El; cbn [bindO pure]; try reflexivity; [|now apply na_leaf_range in El].
  destruct (inplace_loop fuel (snd r) sid (fst l) (snd l) (sbeg (fst r)) f m) as [q| | | |] eqn:Ea; cbn [bindO pure]; try reflexivity. now apply na_inplace_loop in Ea.
Qed.
Lemma overlap_assign_throws fuel m sid s e : assign_throws (overlap_assign true fuel m sid s e) (t_overlap_assign fuel m sid s e).
Proof.
  unfold overlap_assign, t_overlap_assign. rewrite t_eval_eq. destruct (eval_expr true m e) as [[[es vs] lg]| | | |]; cbn [as_exception bindO pure]; try reflexivity.
  pose proof (view_assign_throws fuel (m ++ [vs]) sid s (ELeaf (length m) (SRef 0 es))) as H. destruct (view_assign true fuel (m ++ [vs]) sid s (ELeaf (length m) (SRef 0 es))); cbn [bindO]; unfold assign_throws in *; try exact H.
  rewrite H. reflexivity.
Qed.
Lemma array_set_throws fuel m sid es e :
  match array_set true fuel m sid es e with
  | Ok (m', es') => t_array_set fuel m sid es e = (Ok es', m')
  | Throw x => fst (t_array_set fuel m sid es e) = Throw x
  | Abort => t_array_set fuel m sid es e = (Throw LogicError, m)
  | UB => fst (t_array_set fuel m sid es e) = UB
  | Timeout => fst (t_array_set fuel m sid es e) = Timeout
  end.
Proof.
  unfold array_set, t_array_set. rewrite t_build_eq. destruct (build true e []) as [r| | | |]; cbn [as_exception bindO pure]; try reflexivity.
  destruct (_ =? _).
  - destruct (copy_to fuel (snd r) (sbeg (fst r)) (send (fst r)) sid 0 m) as [m'| | | |] eqn:E; cbn [bindO pure as_exception]; try reflexivity. now apply na_copy_to in E.
  - destruct (copy_n (Z.to_nat (prod_arr (sdim (fst r)))) (snd r) m (sbeg (fst r))) as [q| | | |] eqn:E; cbn [bindO pure as_exception]; try reflexivity. now apply na_copy_n in E.
Qed.

(** Mismatched extents: the exception is thrown before anything is written. *)
Definition mismatched (fuel : nat) m e (es : list Z) : Prop := expr_bad fuel m e \/ exists es', expr_shaped fuel m e es' /\ es' <> es.
Lemma view_assign_clean fuel fu m sid s es ps e : is_view fuel s es ps -> mismatched fuel m e es -> t_view_assign fu m sid s e = (Throw LogicError, m).
Proof.
  intros [H1 _] [B|(es' & K & N)]; unfold t_view_assign.
  - rewrite (t_build_bad _ _ _ _ B). reflexivity.
  - destruct (build_shaped _ _ _ _ K true []) as [x [xe [h [E X]]]]. rewrite (t_build_ok _ _ _ E). cbn [pure]. unfold t_array_assign. rewrite H1. cbn [fst sdim].
    rewrite Zlist_eqb_neq by congruence. reflexivity.
Qed.
Lemma view_inplace_clean fuel fu m sid s es ps f e : is_view fuel s es ps -> mismatched fuel m e es -> t_view_inplace fu m sid s f e = (Throw LogicError, m).
Proof.
  intros [H1 _] [B|(es' & K & N)]; unfold t_view_inplace.
  - rewrite (t_build_bad _ _ _ _ B). reflexivity.
  - destruct (build_shaped _ _ _ _ K true []) as [x [xe [h [E X]]]]. rewrite (t_build_ok _ _ _ E). cbn [pure]. rewrite H1. cbn [fst sdim].
    rewrite Zlist_eqb_neq by congruence. reflexivity.
Qed.
Lemma overlap_assign_clean fuel fu m sid s es ps e : is_view fuel s es ps -> expr_bad fuel m e \/ (exists es', expr_ok fuel m e es' /\ es' <> es) ->
  t_overlap_assign fu m sid s e = (Throw LogicError, m).
Proof.
  intros [H1 _] [B|(es' & K & N)]; unfold t_overlap_assign.
  - rewrite t_eval_eq. unfold eval_expr. rewrite (build_bad _ _ _ B). reflexivity.
  - rewrite t_eval_eq. destruct (eval_expr_spec true fuel m e es' K) as [vs [-> _]]. cbn [as_exception pure]. unfold t_view_assign. cbn [t_build leaf_range dims bindO pure].
    unfold t_array_assign. rewrite H1. cbn [fst sdim]. rewrite Zlist_eqb_neq by congruence. cbn [tassert pure fst snd].
    rewrite firstn_app, Nat.sub_diag, firstn_all, firstn_O, app_nil_r. reflexivity.
Qed.

Lemma ti_product zero add mul fuel m sa a sb b : throws_instead (product zero add mul true fuel m sa a sb b) (t_product zero add mul fuel m sa a sb b).
Proof.
  unfold product, t_product, product_loop, t_product_loop, product_elem, t_product_elem.
  assert (B := fun e => ti_build e []). ti.
Qed.
Lemma ti_blas zero add mul m sa oa ea sb ob eb alpha junk :
  throws_instead (blas_product zero add mul true m sa oa ea sb ob eb alpha junk) (t_blas_product zero add mul m sa oa ea sb ob eb alpha junk).
Proof. unfold blas_product, t_blas_product, safe_int_cast, t_safe_int_cast. ti. Qed.
Lemma na_gemm zero add mul M N K alpha a lda b ldb c ldc m : gemm zero add mul m M N K alpha a lda b ldb c ldc <> Abort.
Proof.
  unfold gemm. destruct (_ || _); [discriminate|]. apply na_foldO. intros m1 j. apply na_foldO. intros m2 i. apply na_bind; [|intros; apply na_store].
  unfold gemm_elem. apply na_foldO. intros acc l. apply na_bind; [apply na_load|]. intros y. apply na_bind; [apply na_load|]. discriminate.
Qed.
Lemma t_blas_na zero add mul m sa oa ea sb ob eb alpha junk : t_blas_product zero add mul m sa oa ea sb ob eb alpha junk <> Abort.
Proof.
  unfold t_blas_product. destruct ea as [|? [|? []]]; try discriminate; destruct eb as [|? [|? []]]; try discriminate. unfold t_safe_int_cast.
  repeat (apply na_bind; [first [apply tassert_na|apply na_gemm|apply na_bind; [apply tassert_na|discriminate]]|intros]). destruct (nth_error _ _); discriminate.
Qed.
Lemma t_product_na zero add mul fuel m sa a sb b : tame fuel a -> tame fuel b -> (forall es, dims a = Some es -> length es = left_dims a) -> (forall es, dims b = Some es -> length es = left_dims b) ->
  t_product zero add mul fuel m sa a sb b <> Abort.
Proof.
  intros Ta Tb Da Db. unfold t_product. destruct (dims a) as [[|r [|c []]]|] eqn:Ea; try discriminate. destruct (dims b) as [[|r' [|c' []]]|] eqn:Eb; try discriminate.
  specialize (Da _ eq_refl). specialize (Db _ eq_refl). cbn in Da, Db.
  apply na_bind; [apply tassert_na|]. intros _. apply na_bind; [apply tassert_na|]. intros _. apply na_bind; [|discriminate].
  unfold t_product_loop. apply na_bind; [|discriminate].
  assert (P : forall i j, 0 <= i -> 0 <= j -> t_product_elem zero add mul fuel m sa a sb b i j <> Abort).
  { intros i j Hi Hj. unfold t_product_elem.
    apply na_bind; [apply t_run_na; auto; [cbn; lia|repeat constructor; auto]|]. intros x.
    apply na_bind; [apply t_run_na; auto; [cbn; lia|repeat constructor; auto]|]. intros y.
    apply na_bind; [apply t_drop_to_na|]. intros z. apply na_bind; [apply t_build_na|]. intros q.
    apply na_sum_loop. }
  assert (Q : forall n k j, 0 <= j -> mapO (fun i => t_product_elem zero add mul fuel m sa a sb b i j) (map Z.of_nat (seq k n)) <> Abort).
  { induction n as [|n IH]; intros k j Hj; cbn [seq map mapO]; [discriminate|]. apply na_bind; [apply P; lia|]. intros v. apply na_bind; [apply IH; auto|discriminate]. }
  assert (R : forall n k, mapO (fun j => mapO (fun i => t_product_elem zero add mul fuel m sa a sb b i j) (map Z.of_nat (seq 0 (Z.to_nat r)))) (map Z.of_nat (seq k n)) <> Abort); [|apply R].
  induction n as [|n IH]; intros k; cbn [seq map mapO]; [discriminate|]. apply na_bind; [apply Q; lia|]. intros v. apply na_bind; [apply IH|discriminate].
Qed.
End Assign.
