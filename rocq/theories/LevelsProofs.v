(** * LevelsProofs: the builds with some of the checks, compared.  Specification and lemmas. *)

From Coq Require Import ZArith List Bool Lia Arith.
From Verif Require Import Base Desc Slice Expr Numeric ArrAssign Builds Levels.
Import ListNotations.
Open Scope Z_scope.

(** ** specification *)
(** The build with more checks ends at a failed check or does exactly the same. *)
Definition stops_or_same {A} (more fewer : outcome A) : Prop := more = Abort \/ more = fewer.

(** ** lemmas: a higher level *)
Lemma mo_refl {A} (x : outcome A) : stops_or_same x x.
Proof. now right. Qed.
Lemma mo_bind {A B} (c u : outcome A) (f g : A -> outcome B) : stops_or_same c u -> (forall a, stops_or_same (f a) (g a)) -> stops_or_same (bindO c f) (bindO u g).
Proof. intros [->| ->] H; [now left|]. destruct u; cbn; try apply mo_refl. apply H. Qed.
Lemma mo_mapO {A B} (f g : A -> outcome B) : (forall a, stops_or_same (f a) (g a)) -> forall l, stops_or_same (mapO f l) (mapO g l).
Proof. intros H. induction l as [|a l IH]; cbn; [apply mo_refl|]. apply mo_bind; auto. intros b. apply mo_bind; auto. intros r. apply mo_refl. Qed.
Lemma mo_foldO {S A} (f g : S -> A -> outcome S) : (forall s a, stops_or_same (f s a) (g s a)) -> forall l s, stops_or_same (foldO f l s) (foldO g l s).
Proof. intros H. induction l as [|a l IH]; intros s; cbn; [apply mo_refl|]. apply mo_bind; auto. Qed.

(** ** lemmas: exactly the same *)
Lemma eo_bind {A B} (c u : outcome A) (f g : A -> outcome B) : c = u -> (forall a, f a = g a) -> bindO c f = bindO u g.
Proof. intros -> H. destruct u; cbn; auto. Qed.
Lemma eo_mapO {A B} (f g : A -> outcome B) : (forall a, f a = g a) -> forall l, mapO f l = mapO g l.
Proof. intros H. induction l as [|a l IH]; cbn; [reflexivity|]. apply eo_bind; auto. intros b. now rewrite IH. Qed.
Lemma eo_foldO {S A} (f g : S -> A -> outcome S) : (forall s a, f s a = g s a) -> forall l s, foldO f l s = foldO g l s.
Proof. intros H. induction l as [|a l IH]; intros s; cbn; [reflexivity|]. apply eo_bind; auto. Qed.

Create HintDb mo.
Ltac mo := repeat first
  [ apply mo_refl
  | progress intros
  | solve [auto with mo]
  | apply mo_bind | apply mo_mapO | apply mo_foldO
  | match goal with
    | |- stops_or_same (match ?x with _ => _ end) (match ?x with _ => _ end) => destruct x
    | |- stops_or_same (if ?x then _ else _) (if ?x then _ else _) => destruct x
    end ].
Create HintDb eo.
Ltac eo := repeat first
  [ reflexivity
  | progress intros
  | solve [auto with eo]
  | apply eo_bind | apply eo_mapO | apply eo_foldO
  | match goal with
    | |- (match ?x with _ => _ end) = (match ?x with _ => _ end) => destruct x
    | |- (if ?x then _ else _) = (if ?x then _ else _) => destruct x
    end ].

Section Compare.
Variables (L1 L2 : nat).
Hypothesis le12 : (L1 <= L2)%nat.

Lemma mo_lassert k c : stops_or_same (lassert L2 k c) (lassert L1 k c).
Proof.
  unfold lassert. destruct (Nat.leb_spec k L1) as [H|H].
  - assert (E : Nat.leb k L2 = true) by (apply Nat.leb_le; lia). rewrite E. apply mo_refl.
  - cbn. destruct (Nat.leb k L2 && negb c); [now left|apply mo_refl].
Qed.
Local Hint Resolve mo_lassert : mo.

Lemma mo_sd_infer s es : stops_or_same (l_sd_infer L2 s es) (l_sd_infer L1 s es).
Proof. unfold l_sd_infer. mo. Qed.
Local Hint Resolve mo_sd_infer : mo.
Lemma mo_mk_vec es idx : stops_or_same (l_mk_vec L2 es idx) (l_mk_vec L1 es idx).
Proof. unfold l_mk_vec. mo. Qed.
Lemma mo_m_map m i : stops_or_same (l_m_map L2 m i) (l_m_map L1 m i).
Proof. unfold l_m_map. mo. Qed.
Local Hint Resolve mo_mk_vec mo_m_map : mo.
Lemma mo_m_drop_first fuel m i : stops_or_same (l_m_drop_first L2 fuel m i) (l_m_drop_first L1 fuel m i).
Proof. unfold l_m_drop_first. mo. Qed.
Local Hint Resolve mo_m_drop_first : mo.
Lemma mo_do_slice : forall args start es ss, stops_or_same (l_do_slice L2 start es ss args) (l_do_slice L1 start es ss args).
Proof. induction args as [|[] args IH]; intros start es ss; destruct es, ss; cbn [l_do_slice]; mo. Qed.
Local Hint Resolve mo_do_slice : mo.
Lemma mo_do_ind d : forall rargs ix acc, stops_or_same (l_do_ind L2 d rargs ix acc) (l_do_ind L1 d rargs ix acc).
Proof. induction rargs as [|a rest IH]; intros ix acc; cbn [l_do_ind]; mo. Qed.
Local Hint Resolve mo_do_ind : mo.
Lemma mo_array_slice fuel m args : stops_or_same (l_array_slice L2 fuel m args) (l_array_slice L1 fuel m args).
Proof. unfold l_array_slice, l_indirect_slicing, l_default_slicing. mo. Qed.
Local Hint Resolve mo_array_slice : mo.
Lemma mo_op_index fuel s u : stops_or_same (l_op_index L2 fuel s u) (l_op_index L1 fuel s u).
Proof.
  destruct s as [p|off es|off es M|off m|off m args]; cbn [l_op_index]; [mo| | | |].
  - unfold l_ref_index, l_ref_abs, l_ref_strided. mo.
  - unfold l_every_index, l_every_at, l_proxy_at. mo.
  - unfold l_view_index. mo.
  - unfold l_proxy_index, l_proxy_at. mo.
Qed.
Local Hint Resolve mo_op_index : mo.
Lemma mo_run fuel us s : stops_or_same (l_run L2 fuel s us) (l_run L1 fuel s us).
Proof. unfold l_run. mo. Qed.
Local Hint Resolve mo_run : mo.
Lemma mo_drop_ext D es : stops_or_same (l_drop_one_level_extents L2 D es) (l_drop_one_level_extents L1 D es).
Proof. unfold l_drop_one_level_extents. mo. Qed.
Lemma mo_sd_drop D d : stops_or_same (l_sd_drop L2 D d) (l_sd_drop L1 D d).
Proof. unfold l_sd_drop. mo. Qed.
Local Hint Resolve mo_drop_ext mo_sd_drop : mo.
Lemma mo_drop_to D s : stops_or_same (l_drop_to L2 D s) (l_drop_to L1 D s).
Proof. unfold l_drop_to. mo. Qed.
Local Hint Resolve mo_drop_to : mo.
Lemma mo_drop_to_scalar s : stops_or_same (l_drop_to_scalar L2 s) (l_drop_to_scalar L1 s).
Proof. unfold l_drop_to_scalar. mo. Qed.
Lemma mo_axis_at fuel axis s i : stops_or_same (l_axis_at L2 fuel axis s i) (l_axis_at L1 fuel axis s i).
Proof. unfold l_axis_at. mo. Qed.
Local Hint Resolve mo_axis_at : mo.
Lemma mo_axis_items fuel axis s : stops_or_same (l_axis_items L2 fuel axis s) (l_axis_items L1 fuel axis s).
Proof. unfold l_axis_items. mo. Qed.
Lemma mo_reshape s es : stops_or_same (l_reshape_ref L2 s es) (l_reshape_ref L1 s es).
Proof. unfold l_reshape_ref. mo. Qed.
Lemma mo_seq a b c : stops_or_same (l_seq_model L2 a b c) (l_seq_model L1 a b c).
Proof. unfold l_seq_model. mo. Qed.

Section Expressions.
Context {V : Type}.
Notation mem := (@mem V).
Notation expr := (@expr V).
Implicit Types (m : mem) (e : expr).
Lemma mo_build : forall e h, stops_or_same (l_build L2 e h) (l_build L1 e h).
Proof. induction e; intros h; cbn [l_build]; mo. Qed.
Local Hint Resolve mo_build : mo.
Lemma mo_eval_expr m e : stops_or_same (l_eval_expr L2 m e) (l_eval_expr L1 m e).
Proof. unfold l_eval_expr. mo. Qed.
Local Hint Resolve mo_eval_expr : mo.
Lemma mo_view_assign fuel m sid s e : stops_or_same (l_view_assign L2 fuel m sid s e) (l_view_assign L1 fuel m sid s e).
Proof. unfold l_view_assign, l_array_assign. mo. Qed.
Local Hint Resolve mo_view_assign : mo.
Lemma mo_view_inplace fuel m sid s f e : stops_or_same (l_view_inplace L2 fuel m sid s f e) (l_view_inplace L1 fuel m sid s f e).
Proof. unfold l_view_inplace. mo. Qed.
Lemma mo_overlap_assign fuel m sid s e : stops_or_same (l_overlap_assign L2 fuel m sid s e) (l_overlap_assign L1 fuel m sid s e).
Proof. unfold l_overlap_assign. mo. Qed.
Lemma mo_array_set fuel m sid es e : stops_or_same (l_array_set L2 fuel m sid es e) (l_array_set L1 fuel m sid es e).
Proof. unfold l_array_set. mo. Qed.
Variables (zero : V) (add mul : V -> V -> V).
Lemma mo_product fuel m sa a sb b : stops_or_same (l_product zero add mul L2 fuel m sa a sb b) (l_product zero add mul L1 fuel m sa a sb b).
Proof. unfold l_product, l_product_loop, l_product_elem. mo. Qed.
Lemma mo_safe_int v : stops_or_same (l_safe_int_cast L2 v) (l_safe_int_cast L1 v).
Proof. unfold l_safe_int_cast. mo. Qed.
Local Hint Resolve mo_safe_int : mo.
Lemma mo_blas m sa offa ea sb offb eb alpha junk :
  stops_or_same (l_blas_product zero add mul L2 m sa offa ea sb offb eb alpha junk) (l_blas_product zero add mul L1 m sa offa ea sb offb eb alpha junk).
Proof. unfold l_blas_product. mo. Qed.
Lemma mo_cat conv (args : list (@cat_arg V)) : stops_or_same (l_cat L2 conv args) (l_cat L1 conv args).
Proof. unfold l_cat, l_cat_push, l_cat_push1. mo. Qed.
Lemma mo_as_vector conv fuel m e : stops_or_same (l_as_vector L2 conv fuel m e) (l_as_vector L1 conv fuel m e).
Proof. unfold l_as_vector. mo. Qed.
End Expressions.
End Compare.

(** ** lemmas: no checks and all checks *)
(** The build at level [L] has all checks ([chk = true]) or none. *)
Definition ends (L : nat) (chk : bool) : Prop := if chk then (3 <= L)%nat else L = 0%nat.

Lemma at_end L chk k c : ends L chk -> (1 <= k <= 3)%nat -> lassert L k c = dassert chk c.
Proof. unfold lassert, ends. intros H K. destruct (Nat.leb_spec k L), chk, c; cbn; try reflexivity; lia. Qed.

(** The same for the checks above level 1 only. *)
Definition ends2 (L : nat) (chk : bool) : Prop := if chk then (3 <= L)%nat else (L <= 1)%nat.
Lemma ends_ends2 L chk : ends L chk -> ends2 L chk.
Proof. destruct chk; cbn; lia. Qed.

Section Ends.
Variables (L : nat) (chk : bool).
Hypothesis HL : ends2 L chk.

Lemma eo_invalid c : lassert L lv_invalid c = dassert chk c.
Proof. unfold lassert, lv_invalid. destruct (Nat.leb_spec 2 L), chk, c; cbn in *; try reflexivity; lia. Qed.
Lemma eo_bounds c : lassert L lv_bounds c = dassert chk c.
Proof. unfold lassert, lv_bounds. destruct (Nat.leb_spec 3 L), chk, c; cbn in *; try reflexivity; lia. Qed.
Lemma eo_extents c : lassert L lv_extents c = dassert chk c.
Proof. apply eo_bounds. Qed.
Local Hint Resolve eo_invalid eo_bounds eo_extents : eo.

Lemma eo_sd_infer s es : l_sd_infer L s es = sd_infer chk s es.
Proof. unfold l_sd_infer, sd_infer. eo. Qed.
Local Hint Resolve eo_sd_infer : eo.
Lemma eo_mk_vec es idx : l_mk_vec L es idx = mk_vec chk es idx.
Proof. unfold l_mk_vec, mk_vec. eo. Qed.
Lemma eo_m_map m i : l_m_map L m i = m_map chk m i.
Proof. unfold l_m_map, m_map. eo. Qed.
Local Hint Resolve eo_mk_vec eo_m_map : eo.
Lemma eo_m_drop_first fuel m i : l_m_drop_first L fuel m i = m_drop_first chk fuel m i.
Proof. unfold l_m_drop_first, m_drop_first. eo. Qed.
Local Hint Resolve eo_m_drop_first : eo.
Lemma eo_do_slice : forall args start es ss, l_do_slice L start es ss args = do_slice chk start es ss args.
Proof. induction args as [|[] args IH]; intros start es ss; destruct es, ss; cbn [l_do_slice do_slice]; eo. Qed.
Local Hint Resolve eo_do_slice : eo.
Lemma eo_do_ind d : forall rargs ix acc, l_do_ind L d rargs ix acc = do_ind chk d rargs ix acc.
Proof. induction rargs as [|a rest IH]; intros ix acc; cbn [l_do_ind do_ind]; eo. Qed.
Local Hint Resolve eo_do_ind : eo.
Lemma eo_array_slice fuel m args : l_array_slice L fuel m args = array_slice chk fuel m args.
Proof. unfold l_array_slice, l_indirect_slicing, l_default_slicing, array_slice, indirect_slicing, default_slicing. eo. Qed.
Local Hint Resolve eo_array_slice : eo.
Lemma eo_op_index fuel s u : l_op_index L fuel s u = op_index chk fuel s u.
Proof.
  destruct s as [p|off es|off es M|off m|off m args]; cbn [l_op_index op_index]; [eo| | | |].
  - unfold l_ref_index, l_ref_abs, l_ref_strided, ref_index, ref_abs, ref_strided. eo.
  - unfold l_every_index, l_every_at, l_proxy_at, every_index, every_at, proxy_at. eo.
  - unfold l_view_index, view_index. eo.
  - unfold l_proxy_index, l_proxy_at, proxy_index, proxy_at. eo.
Qed.
Local Hint Resolve eo_op_index : eo.
Lemma eo_run fuel us s : l_run L fuel s us = run chk fuel s us.
Proof. unfold l_run, run. eo. Qed.
Local Hint Resolve eo_run : eo.
Lemma eo_drop_ext D es : l_drop_one_level_extents L D es = drop_one_level_extents chk D es.
Proof. unfold l_drop_one_level_extents, drop_one_level_extents. eo. Qed.
Lemma eo_sd_drop D d : l_sd_drop L D d = sd_drop chk D d.
Proof. unfold l_sd_drop, sd_drop. eo. Qed.
Local Hint Resolve eo_drop_ext eo_sd_drop : eo.
Lemma eo_drop_to D s : l_drop_to L D s = drop_to chk D s.
Proof. unfold l_drop_to, drop_to. eo. Qed.
Local Hint Resolve eo_drop_to : eo.
Lemma eo_drop_to_scalar s : l_drop_to_scalar L s = drop_to_scalar chk s.
Proof. unfold l_drop_to_scalar, drop_to_scalar. eo. Qed.
Lemma eo_axis_at fuel axis s i : l_axis_at L fuel axis s i = axis_at chk fuel axis s i.
Proof. unfold l_axis_at, axis_at. eo. Qed.
Local Hint Resolve eo_axis_at : eo.
Lemma eo_axis_items fuel axis s : l_axis_items L fuel axis s = axis_items chk fuel axis s.
Proof. unfold l_axis_items, axis_items. eo. Qed.
Lemma eo_reshape s es : l_reshape_ref L s es = reshape_ref chk s es.
Proof. unfold l_reshape_ref, reshape_ref. eo. Qed.
Lemma eo_seq a b c : l_seq_model L a b c = seq_model chk a b c.
Proof. unfold l_seq_model, seq_model. eo. Qed.

Section Expressions.
Context {V : Type}.
Notation mem := (@mem V).
Notation expr := (@expr V).
Implicit Types (m : mem) (e : expr).
Lemma eo_build : forall e h, l_build L e h = build chk e h.
Proof. induction e; intros h; cbn [l_build build]; eo. Qed.
Local Hint Resolve eo_build : eo.
Lemma eo_eval_expr m e : l_eval_expr L m e = eval_expr chk m e.
Proof. unfold l_eval_expr, eval_expr. eo. Qed.
Local Hint Resolve eo_eval_expr : eo.
Lemma eo_view_assign fuel m sid s e : ends L chk -> l_view_assign L fuel m sid s e = view_assign chk fuel m sid s e.
Proof.
  intros HE. assert (U : forall c, lassert L lv_unreachable c = dassert chk c) by (intros; apply at_end; auto; unfold lv_unreachable; lia).
  unfold l_view_assign, l_array_assign, view_assign, array_assign. eo.
Qed.
Local Hint Resolve eo_view_assign : eo.
Lemma eo_view_inplace fuel m sid s f e : l_view_inplace L fuel m sid s f e = view_inplace chk fuel m sid s f e.
Proof. unfold l_view_inplace, view_inplace. eo. Qed.
Lemma eo_overlap_assign fuel m sid s e : ends L chk -> l_overlap_assign L fuel m sid s e = overlap_assign chk fuel m sid s e.
Proof. unfold l_overlap_assign, overlap_assign. eo. Qed.
Lemma eo_array_set fuel m sid es e : l_array_set L fuel m sid es e = array_set chk fuel m sid es e.
Proof. unfold l_array_set, array_set. eo. Qed.
Variables (zero : V) (add mul : V -> V -> V).
Lemma eo_product fuel m sa a sb b : l_product zero add mul L fuel m sa a sb b = product zero add mul chk fuel m sa a sb b.
Proof. unfold l_product, l_product_loop, l_product_elem, product, product_loop, product_elem. eo. Qed.
Lemma eo_safe_int v : l_safe_int_cast L v = safe_int_cast chk v.
Proof. unfold l_safe_int_cast, safe_int_cast. eo. Qed.
Local Hint Resolve eo_safe_int : eo.
Lemma eo_blas m sa offa ea sb offb eb alpha junk :
  l_blas_product zero add mul L m sa offa ea sb offb eb alpha junk = blas_product zero add mul chk m sa offa ea sb offb eb alpha junk.
Proof. unfold l_blas_product, blas_product. eo. Qed.
Lemma eo_cat conv (args : list (@cat_arg V)) : l_cat L conv args = cat conv chk args.
Proof. unfold l_cat, l_cat_push, l_cat_push1, cat, cat_push, cat_push1. eo. Qed.
Lemma eo_as_vector conv fuel m e : l_as_vector L conv fuel m e = as_vector conv chk fuel m e.
Proof. unfold l_as_vector, as_vector. eo. Qed.
End Expressions.
End Ends.
