(** * Builds: checked and unchecked builds compared.  Specification and lemmas. *)

From Coq Require Import ZArith List Bool Lia Arith.
From Verif Require Import Base Desc Slice Expr Numeric ExprLife ArrAssign Coerce Random Reduce Stats Freq RangeLoop.
Import ListNotations.
Open Scope Z_scope.

(** ** specification *)
(** The unchecked build never ends at a failed check, and the checked build ends at a failed check or does exactly the same. *)
Definition same_or_stops {A} (checked unchecked : outcome A) : Prop := unchecked <> Abort /\ (checked = Abort \/ checked = unchecked).

(** ** lemmas *)
Lemma so_refl {A} (u : outcome A) : u <> Abort -> same_or_stops u u.
Proof. intros H. split; auto. Qed.
Lemma so_ok {A} (a : A) : same_or_stops (Ok a) (Ok a).
Proof. split; [discriminate|auto]. Qed.
Lemma so_ub {A} : @same_or_stops A UB UB.
Proof. split; [discriminate|auto]. Qed.
Lemma so_timeout {A} : @same_or_stops A Timeout Timeout.
Proof. split; [discriminate|auto]. Qed.
Lemma so_throw {A} e : @same_or_stops A (Throw e) (Throw e).
Proof. split; [discriminate|auto]. Qed.
Lemma so_bind {A B} (c u : outcome A) (f g : A -> outcome B) : same_or_stops c u -> (forall a, same_or_stops (f a) (g a)) -> same_or_stops (bindO c f) (bindO u g).
Proof.
  intros [H1 [->| ->]] H; destruct u as [a|e| | |]; cbn; try congruence; try apply so_throw; try apply so_ub; try apply so_timeout; try apply H;
    try (split; [apply H|auto]); split; try discriminate; auto.
Qed.
Lemma so_assert b : same_or_stops (dassert true b) (dassert false b).
Proof. destruct b; cbn; split; try discriminate; auto. Qed.
Lemma so_mapO {A B} (f g : A -> outcome B) : (forall a, same_or_stops (f a) (g a)) -> forall l, same_or_stops (mapO f l) (mapO g l).
Proof. intros H. induction l as [|a l IH]; cbn; [apply so_ok|]. apply so_bind; auto. intros b. apply so_bind; auto. intros r. apply so_ok. Qed.
Lemma so_foldO {S A} (f g : S -> A -> outcome S) : (forall s a, same_or_stops (f s a) (g s a)) -> forall l s, same_or_stops (foldO f l s) (foldO g l s).
Proof. intros H. induction l as [|a l IH]; intros s; cbn; [apply so_ok|]. apply so_bind; auto. Qed.

(** Functions without checks. *)
Lemma na_bind {A B} (c : outcome A) (f : A -> outcome B) : c <> Abort -> (forall a, f a <> Abort) -> bindO c f <> Abort.
Proof. intros H1 H2. destruct c; cbn; try discriminate; auto. Qed.
Lemma na_mapO {A B} (f : A -> outcome B) : (forall a, f a <> Abort) -> forall l, mapO f l <> Abort.
Proof. intros H. induction l; cbn; [discriminate|]. apply na_bind; auto. intros. apply na_bind; auto. discriminate. Qed.
Lemma na_foldO {S A} (f : S -> A -> outcome S) : (forall s a, f s a <> Abort) -> forall l s, foldO f l s <> Abort.
Proof. intros H. induction l; intros s; cbn; [discriminate|]. apply na_bind; auto. Qed.

Create HintDb na.
Ltac na := repeat first
  [ discriminate
  | progress intros
  | solve [auto with na]
  | apply na_bind | apply na_mapO | apply na_foldO
  | match goal with
    | |- (match ?x with _ => _ end) <> Abort => destruct x
    | |- (let (_, _) := ?x in _) <> Abort => destruct x
    end ].

Lemma na_get {A} (l : list A) i : get l i <> Abort.
Proof. unfold get. na. Qed.
Lemma na_put {A} (l : list A) i v : put l i v <> Abort.
Proof. unfold put. na. Qed.
#[export] Hint Resolve na_get na_put : na.
Lemma na_incr : forall es ix, incr es ix <> Abort.
Proof. induction es as [|e es IH]; intros [|i ix]; cbn; try discriminate; destruct es; na. Qed.
#[export] Hint Resolve na_incr : na.
Lemma na_it_next d it : it_next d it <> Abort.
Proof. unfold it_next. na. Qed.
#[export] Hint Resolve na_it_next : na.
Lemma na_walk_from d : forall fuel it, sd_walk_from fuel d it <> Abort.
Proof. induction fuel as [|f IH]; intros it; cbn; na. Qed.
Lemma na_walk fuel d : sd_walk fuel d <> Abort.
Proof. apply na_walk_from. Qed.
#[export] Hint Resolve na_walk : na.
Lemma na_seq_size a b c : seq_size a b c <> Abort.
Proof. unfold seq_size. na. Qed.
#[export] Hint Resolve na_seq_size : na.
Lemma na_resolve u dim : resolve u dim <> Abort.
Proof. unfold resolve, eval_bounded_strided, seq_size. na. Qed.
Lemma na_bounded s m t dim : eval_bounded_strided s m t dim <> Abort.
Proof. unfold eval_bounded_strided, seq_size. na. Qed.
#[export] Hint Resolve na_resolve na_bounded : na.

Create HintDb so.
Ltac so := repeat first
  [ apply so_ok | apply so_ub | apply so_timeout | apply so_throw | apply so_assert
  | progress intros
  | solve [auto with so]
  | apply so_bind | apply so_mapO | apply so_foldO
  | match goal with
    | |- same_or_stops (match ?x with _ => _ end) (match ?x with _ => _ end) => destruct x
    | |- same_or_stops (if ?x then _ else _) (if ?x then _ else _) => destruct x
    end
  | solve [apply so_refl; na] ].

Lemma so_infer s es : same_or_stops (sd_infer true s es) (sd_infer false s es).
Proof. unfold sd_infer. so. Qed.
#[export] Hint Resolve so_infer : so.
Lemma so_mk_vec es idx : same_or_stops (mk_vec true es idx) (mk_vec false es idx).
Proof. unfold mk_vec. so. Qed.
Lemma so_m_map m i : same_or_stops (m_map true m i) (m_map false m i).
Proof. unfold m_map. so. Qed.
#[export] Hint Resolve so_mk_vec so_m_map : so.
Lemma so_m_drop_first fuel m i : same_or_stops (m_drop_first true fuel m i) (m_drop_first false fuel m i).
Proof. unfold m_drop_first. so. Qed.
#[export] Hint Resolve so_m_drop_first : so.
Lemma so_do_slice : forall es start ss args, same_or_stops (do_slice true start es ss args) (do_slice false start es ss args).
Proof. induction es as [|e es IH]; intros start ss args; destruct args as [|[]], ss; cbn [do_slice]; so. Qed.
#[export] Hint Resolve so_do_slice : so.
Lemma so_do_ind d : forall rargs ix acc, same_or_stops (do_ind true d rargs ix acc) (do_ind false d rargs ix acc).
Proof. induction rargs as [|a rest IH]; intros ix acc; cbn [do_ind]; so. Qed.
#[export] Hint Resolve so_do_ind : so.
Lemma so_array_slice fuel m args : same_or_stops (array_slice true fuel m args) (array_slice false fuel m args).
Proof. unfold array_slice, indirect_slicing, default_slicing. so. Qed.
#[export] Hint Resolve so_array_slice : so.
Lemma so_op_index fuel s u : same_or_stops (op_index true fuel s u) (op_index false fuel s u).
Proof.
  destruct s as [p|off es|off es M|off m|off m args]; cbn [op_index]; [so| | | |].
  - unfold ref_index, ref_abs, ref_strided. so.
  - unfold every_index, every_at, proxy_at. so.
  - unfold view_index. so.
  - unfold proxy_index, proxy_at. so.
Qed.
#[export] Hint Resolve so_op_index : so.
Lemma so_run fuel us s : same_or_stops (run true fuel s us) (run false fuel s us).
Proof. unfold run. so. Qed.
#[export] Hint Resolve so_run : so.
Lemma so_drop_ext D es : same_or_stops (drop_one_level_extents true D es) (drop_one_level_extents false D es).
Proof. unfold drop_one_level_extents. so. Qed.
Lemma so_sd_drop D d : same_or_stops (sd_drop true D d) (sd_drop false D d).
Proof. unfold sd_drop. so. Qed.
#[export] Hint Resolve so_drop_ext so_sd_drop : so.
Lemma so_drop_to D s : same_or_stops (drop_to true D s) (drop_to false D s).
Proof. unfold drop_to. so. Qed.
#[export] Hint Resolve so_drop_to : so.
Lemma so_drop_to_scalar s : same_or_stops (drop_to_scalar true s) (drop_to_scalar false s).
Proof. unfold drop_to_scalar. so. Qed.
Lemma so_axis_at fuel axis s i : same_or_stops (axis_at true fuel axis s i) (axis_at false fuel axis s i).
Proof. unfold axis_at. so. Qed.
#[export] Hint Resolve so_axis_at : so.
Lemma so_axis_items fuel axis s : same_or_stops (axis_items true fuel axis s) (axis_items false fuel axis s).
Proof. unfold axis_items. so. Qed.

Section Expressions.
Context {V : Type}.
Notation mem := (@mem V).
Notation expr := (@expr V).

Lemma na_leaf_range s : leaf_range s <> Abort.
Proof. unfold leaf_range. na. Qed.
Lemma na_load (m : mem) sid p : load m sid p <> Abort.
Proof. unfold load. na. Qed.
Lemma na_store (m : mem) sid p v : store m sid p v <> Abort.
Proof. unfold store. na. Qed.
#[local] Hint Resolve na_leaf_range na_load na_store : na.
Lemma na_lit_deref i : lit_deref i <> Abort.
Proof. unfold lit_deref. na. Qed.
Lemma na_lit_next i : lit_next i <> Abort.
Proof. unfold lit_next. na. Qed.
#[local] Hint Resolve na_lit_deref na_lit_next : na.
Lemma na_xderef h (m : mem) : forall x, xderef h m x <> Abort.
Proof. induction x; cbn; na. Qed.
Lemma na_xnext : forall x, xnext x <> Abort.
Proof. induction x; cbn; na. Qed.
#[local] Hint Resolve na_xderef na_xnext : na.
Lemma na_copy_n h (m : mem) : forall n x, copy_n n h m x <> Abort.
Proof. induction n; intros x; cbn; na. Qed.
#[local] Hint Resolve na_copy_n : na.
Lemma na_assign_loop h sid dend : forall fuel d x (m : mem), assign_loop fuel h sid d dend x m <> Abort.
Proof. induction fuel; intros d x m; cbn; na. Qed.
Lemma na_inplace_loop h sid dend f : forall fuel d x (m : mem), inplace_loop fuel h sid d dend x f m <> Abort.
Proof. induction fuel; intros d x m; cbn; na. Qed.
Lemma na_copy_to h xe sid : forall fuel x p (m : mem), copy_to fuel h x xe sid p m <> Abort.
Proof. induction fuel; intros x p m; cbn; na. Qed.
#[local] Hint Resolve na_assign_loop na_inplace_loop na_copy_to : na.

Lemma so_build : forall (e : expr) h, same_or_stops (build true e h) (build false e h).
Proof. induction e; intros h; cbn [build]; so. Qed.
#[local] Hint Resolve so_build : so.
Lemma so_eval_expr (m : mem) e : same_or_stops (eval_expr true m e) (eval_expr false m e).
Proof. unfold eval_expr, materialise. so. Qed.
Lemma so_eval_stored (m : mem) e : same_or_stops (eval_stored true m e) (eval_stored false m e).
Proof. unfold eval_stored, materialise. so. Qed.
#[local] Hint Resolve so_eval_expr : so.
Lemma so_view_assign fuel (m : mem) sid s e : same_or_stops (view_assign true fuel m sid s e) (view_assign false fuel m sid s e).
Proof. unfold view_assign, array_assign. so. Qed.
#[local] Hint Resolve so_view_assign : so.
Lemma so_view_inplace fuel (m : mem) sid s f e : same_or_stops (view_inplace true fuel m sid s f e) (view_inplace false fuel m sid s f e).
Proof. unfold view_inplace. so. Qed.
Lemma so_overlap_assign fuel (m : mem) sid s e : same_or_stops (overlap_assign true fuel m sid s e) (overlap_assign false fuel m sid s e).
Proof. unfold overlap_assign. so. Qed.
Lemma so_array_set fuel (m : mem) sid es e : same_or_stops (array_set true fuel m sid es e) (array_set false fuel m sid es e).
Proof. unfold array_set. so. Qed.

(** expressions kept in variables *)
Lemma na_alive (h : @lheap V) dep : alive h dep <> Abort.
Proof. unfold alive. na. Qed.
#[local] Hint Resolve na_alive : na.
Lemma na_yderef (h : lheap) (m : mem) : forall y, yderef h m y <> Abort.
Proof. induction y; cbn; na. Qed.
Lemma na_ynext (h : @lheap V) : forall y, ynext h y <> Abort.
Proof. induction y; cbn; na. Qed.
#[local] Hint Resolve na_yderef na_ynext : na.
Lemma na_lcopy_n (h : lheap) (m : mem) : forall n y, lcopy_n n h m y <> Abort.
Proof. induction n; intros y; cbn; na. Qed.
#[local] Hint Resolve na_lcopy_n : na.
Lemma so_lbuild : forall (e : @lexpr V) h, same_or_stops (lbuild true e h) (lbuild false e h).
Proof. induction e; intros h; cbn [lbuild]; so. Qed.
#[local] Hint Resolve so_lbuild : so.
Lemma so_leval (m : mem) e : same_or_stops (leval_expr true m e) (leval_expr false m e) /\ same_or_stops (leval_stored true m e) (leval_stored false m e).
Proof. unfold leval_expr, leval_stored, lmaterialise. split; so. Qed.

(** numeric *)
Variables (zero : V) (add mul : V -> V -> V).
Lemma na_sum_loop h (m : mem) xe : forall fuel x start, sum_loop add fuel h m x xe start <> Abort.
Proof. induction fuel; intros x start; cbn; na. Qed.
#[local] Hint Resolve na_sum_loop : na.
Lemma so_product fuel (m : mem) sa a sb b : same_or_stops (product zero add mul true fuel m sa a sb b) (product zero add mul false fuel m sa a sb b).
Proof. unfold product, product_loop, product_elem. so. Qed.
Lemma na_gemm (m : mem) M N K alpha a lda b ldb c ldc : gemm zero add mul m M N K alpha a lda b ldb c ldc <> Abort.
Proof. unfold gemm, gemm_elem. na. Qed.
#[local] Hint Resolve na_gemm : na.
Lemma so_safe_int v : same_or_stops (safe_int_cast true v) (safe_int_cast false v).
Proof. unfold safe_int_cast. so. Qed.
#[local] Hint Resolve so_safe_int : so.
Lemma so_blas (m : mem) sa offa ea sb offb eb alpha junk :
  same_or_stops (blas_product zero add mul true m sa offa ea sb offb eb alpha junk) (blas_product zero add mul false m sa offa ea sb offb eb alpha junk).
Proof. unfold blas_product. so. Qed.
Lemma so_cat_push1 size (acc : list V) v : same_or_stops (cat_push1 true size acc v) (cat_push1 false size acc v).
Proof. unfold cat_push1. so. Qed.
#[local] Hint Resolve so_cat_push1 : so.
Lemma so_cat conv (args : list cat_arg) : same_or_stops (cat conv true args : outcome (list Z * list V)) (cat conv false args).
Proof. unfold cat, cat_push. so. Qed.
Lemma na_xdist xe : forall fuel x, xdist fuel x xe <> Abort.
Proof. induction fuel; intros x; cbn; na. Qed.
#[local] Hint Resolve na_xdist : na.
Lemma so_as_vector conv fuel (m : mem) e : same_or_stops (as_vector conv true fuel m e) (as_vector conv false fuel m e).
Proof. unfold as_vector. so. Qed.

(** algorithms *)
Lemma na_for_loop {S R} (body : S -> V -> outcome (step S R)) fin h (m : mem) last : (forall s v, body s v <> Abort) -> forall fuel first s, for_loop body fin fuel h m first last s <> Abort.
Proof. intros H. induction fuel; intros first s; cbn; na. Qed.
Lemma so_ranged {R} (e : expr) (k : @heap V -> src -> outcome R) : (forall h s, k h s <> Abort) -> same_or_stops (ranged true e k) (ranged false e k).
Proof. intros H. unfold ranged. so. Qed.
End Expressions.

Lemma na_sres z : sres z <> Abort.
Proof. unfold sres. na. Qed.
#[export] Hint Resolve na_sres : na.
Lemma so_seq a b c : same_or_stops (seq_model true a b c) (seq_model false a b c).
Proof. unfold seq_model. so. Qed.
Lemma so_reshape s es : same_or_stops (reshape_ref true s es) (reshape_ref false s es).
Proof. unfold reshape_ref. so. Qed.
