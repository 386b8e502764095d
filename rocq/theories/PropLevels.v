(** * PropLevels: property C74 (builds with some of the checks).

    [JULES_DEBUG_LEVEL] chooses which checks are compiled in.  [stops_or_same more fewer] (LevelsProofs.v): the build with more checks
    ends at a failed check, or has exactly the same result, exception, undefined behaviour or endless loop. *)

From Coq Require Import ZArith List Bool Lia Arith.
From Verif Require Import Base Spec Desc Slice Expr Numeric ArrAssign Builds Levels LevelsProofs.
Import ListNotations.
Open Scope Z_scope.

(** Raising the level only adds places where the program stops. *)
Theorem C74_levels : forall L1 L2, (L1 <= L2)%nat ->
  (forall fuel s us, stops_or_same (l_run L2 fuel s us) (l_run L1 fuel s us)) /\
  (forall D s, stops_or_same (l_drop_to L2 D s) (l_drop_to L1 D s)) /\
  (forall s, stops_or_same (l_drop_to_scalar L2 s) (l_drop_to_scalar L1 s)) /\
  (forall fuel axis s, stops_or_same (l_axis_items L2 fuel axis s) (l_axis_items L1 fuel axis s)) /\
  (forall s es, stops_or_same (l_reshape_ref L2 s es) (l_reshape_ref L1 s es)) /\
  (forall a b c, stops_or_same (l_seq_model L2 a b c) (l_seq_model L1 a b c)) /\
  forall (V : Type) (zero : V) (add mul : V -> V -> V) fuel (m : @mem V) e,
  stops_or_same (l_eval_expr L2 m e) (l_eval_expr L1 m e) /\
  (forall sid s, stops_or_same (l_view_assign L2 fuel m sid s e) (l_view_assign L1 fuel m sid s e)) /\
  (forall sid s f, stops_or_same (l_view_inplace L2 fuel m sid s f e) (l_view_inplace L1 fuel m sid s f e)) /\
  (forall sid s, stops_or_same (l_overlap_assign L2 fuel m sid s e) (l_overlap_assign L1 fuel m sid s e)) /\
  (forall sid es, stops_or_same (l_array_set L2 fuel m sid es e) (l_array_set L1 fuel m sid es e)) /\
  (forall sa a sb b, stops_or_same (l_product zero add mul L2 fuel m sa a sb b) (l_product zero add mul L1 fuel m sa a sb b)) /\
  (forall sa offa ea sb offb eb alpha junk, stops_or_same (l_blas_product zero add mul L2 m sa offa ea sb offb eb alpha junk)
                                                          (l_blas_product zero add mul L1 m sa offa ea sb offb eb alpha junk)) /\
  (forall (conv : V -> V) (args : list cat_arg), stops_or_same (l_cat L2 conv args : outcome (list Z * list V)) (l_cat L1 conv args)) /\
  (forall conv : V -> V, stops_or_same (l_as_vector L2 conv fuel m e) (l_as_vector L1 conv fuel m e)).
Proof.
  intros L1 L2 H. split; [intros; now apply mo_run|]. split; [intros; now apply mo_drop_to|]. split; [intros; now apply mo_drop_to_scalar|].
  split; [intros; now apply mo_axis_items|]. split; [intros; now apply mo_reshape|]. split; [intros; now apply mo_seq|].
  intros V zero add mul fuel m e. split; [now apply mo_eval_expr|]. split; [intros; now apply mo_view_assign|]. split; [intros; now apply mo_view_inplace|].
  split; [intros; now apply mo_overlap_assign|]. split; [intros; now apply mo_array_set|]. split; [intros; now apply mo_product|].
  split; [intros; now apply mo_blas|]. split; intros; [now apply mo_cat|now apply mo_as_vector].
Qed.
Print Assumptions C74_levels.

(** Level 0 is the build without checks, level 3 and every higher one the build with all of them: the two builds the other properties are about. *)
Theorem C74_ends : forall (L : nat) (chk : bool), (if chk then (3 <= L)%nat else L = 0%nat) ->
  (forall fuel s us, l_run L fuel s us = run chk fuel s us) /\
  (forall D s, l_drop_to L D s = drop_to chk D s) /\
  (forall s, l_drop_to_scalar L s = drop_to_scalar chk s) /\
  (forall fuel axis s, l_axis_items L fuel axis s = axis_items chk fuel axis s) /\
  (forall s es, l_reshape_ref L s es = reshape_ref chk s es) /\
  (forall a b c, l_seq_model L a b c = seq_model chk a b c) /\
  forall (V : Type) (zero : V) (add mul : V -> V -> V) fuel (m : @mem V) e,
  l_eval_expr L m e = eval_expr chk m e /\
  (forall sid s, l_view_assign L fuel m sid s e = view_assign chk fuel m sid s e) /\
  (forall sid s f, l_view_inplace L fuel m sid s f e = view_inplace chk fuel m sid s f e) /\
  (forall sid s, l_overlap_assign L fuel m sid s e = overlap_assign chk fuel m sid s e) /\
  (forall sid es, l_array_set L fuel m sid es e = array_set chk fuel m sid es e) /\
  (forall sa a sb b, l_product zero add mul L fuel m sa a sb b = product zero add mul chk fuel m sa a sb b) /\
  (forall sa offa ea sb offb eb alpha junk, l_blas_product zero add mul L m sa offa ea sb offb eb alpha junk =
                                            blas_product zero add mul chk m sa offa ea sb offb eb alpha junk) /\
  (forall (conv : V -> V) (args : list cat_arg), (l_cat L conv args : outcome (list Z * list V)) = cat conv chk args) /\
  (forall conv : V -> V, l_as_vector L conv fuel m e = as_vector conv chk fuel m e).
Proof.
  intros L chk H. fold (ends L chk) in H. split; [intros; apply eo_run; auto using ends_ends2|]. split; [intros; apply eo_drop_to; auto using ends_ends2|]. split; [intros; apply eo_drop_to_scalar; auto using ends_ends2|].
  split; [intros; apply eo_axis_items; auto using ends_ends2|]. split; [intros; apply eo_reshape; auto using ends_ends2|]. split; [intros; apply eo_seq; auto using ends_ends2|].
  intros V zero add mul fuel m e. split; [apply eo_eval_expr; auto using ends_ends2|]. split; [intros; apply eo_view_assign; auto using ends_ends2|]. split; [intros; apply eo_view_inplace; auto using ends_ends2|].
  split; [intros; apply eo_overlap_assign; auto using ends_ends2|]. split; [intros; apply eo_array_set; auto using ends_ends2|]. split; [intros; apply eo_product; auto using ends_ends2|].
  split; [intros; apply eo_blas; auto using ends_ends2|]. split; intros; [apply eo_cat; auto using ends_ends2|apply eo_as_vector; auto using ends_ends2].
Qed.
Print Assumptions C74_ends.

(** A call that passes every check of the fully checked build does exactly the same at every level. *)
Lemma at_every_level {A} (l : nat -> outcome A) (f : bool -> outcome A) :
  (forall L1 L2, (L1 <= L2)%nat -> stops_or_same (l L2) (l L1)) -> (forall L, (3 <= L)%nat -> l L = f true) -> f true <> Abort -> forall L, l L = f true.
Proof.
  intros M E N L. destruct (M L (L + 3)%nat) as [H|H]; [lia| |].
  - exfalso. apply N. rewrite <- (E (L + 3)%nat); [assumption|lia].
  - rewrite <- H. apply E. lia.
Qed.
Theorem C74_correct_calls : forall L,
  (forall fuel s us, run true fuel s us <> Abort -> l_run L fuel s us = run true fuel s us) /\
  (forall D s, drop_to true D s <> Abort -> l_drop_to L D s = drop_to true D s) /\
  (forall s, drop_to_scalar true s <> Abort -> l_drop_to_scalar L s = drop_to_scalar true s) /\
  (forall fuel axis s, axis_items true fuel axis s <> Abort -> l_axis_items L fuel axis s = axis_items true fuel axis s) /\
  (forall s es, reshape_ref true s es <> Abort -> l_reshape_ref L s es = reshape_ref true s es) /\
  (forall a b c, seq_model true a b c <> Abort -> l_seq_model L a b c = seq_model true a b c) /\
  forall (V : Type) (zero : V) (add mul : V -> V -> V) fuel (m : @mem V) e,
  (eval_expr true m e <> Abort -> l_eval_expr L m e = eval_expr true m e) /\
  (forall sid s, view_assign true fuel m sid s e <> Abort -> l_view_assign L fuel m sid s e = view_assign true fuel m sid s e) /\
  (forall sid s f, view_inplace true fuel m sid s f e <> Abort -> l_view_inplace L fuel m sid s f e = view_inplace true fuel m sid s f e) /\
  (forall sid s, overlap_assign true fuel m sid s e <> Abort -> l_overlap_assign L fuel m sid s e = overlap_assign true fuel m sid s e) /\
  (forall sid es, array_set true fuel m sid es e <> Abort -> l_array_set L fuel m sid es e = array_set true fuel m sid es e) /\
  (forall sa a sb b, product zero add mul true fuel m sa a sb b <> Abort -> l_product zero add mul L fuel m sa a sb b = product zero add mul true fuel m sa a sb b) /\
  (forall sa offa ea sb offb eb alpha junk, blas_product zero add mul true m sa offa ea sb offb eb alpha junk <> Abort ->
     l_blas_product zero add mul L m sa offa ea sb offb eb alpha junk = blas_product zero add mul true m sa offa ea sb offb eb alpha junk) /\
  (forall (conv : V -> V) (args : list cat_arg), (cat conv true args : outcome (list Z * list V)) <> Abort -> l_cat L conv args = cat conv true args) /\
  (forall conv : V -> V, as_vector conv true fuel m e <> Abort -> l_as_vector L conv fuel m e = as_vector conv true fuel m e).
Proof.
  intros L.
  split; [intros fuel s us N; apply (at_every_level (fun L => l_run L fuel s us) (fun c => run c fuel s us)); [intros; now apply mo_run|intros; now apply eo_run|exact N]|].
  split; [intros D s N; apply (at_every_level (fun L => l_drop_to L D s) (fun c => drop_to c D s)); [intros; now apply mo_drop_to|intros; now apply eo_drop_to|exact N]|].
  split; [intros s N; apply (at_every_level (fun L => l_drop_to_scalar L s) (fun c => drop_to_scalar c s)); [intros; now apply mo_drop_to_scalar|intros; now apply eo_drop_to_scalar|exact N]|].
  split; [intros fuel axis s N; apply (at_every_level (fun L => l_axis_items L fuel axis s) (fun c => axis_items c fuel axis s)); [intros; now apply mo_axis_items|intros; now apply eo_axis_items|exact N]|].
  split; [intros s es N; apply (at_every_level (fun L => l_reshape_ref L s es) (fun c => reshape_ref c s es)); [intros; now apply mo_reshape|intros; now apply eo_reshape|exact N]|].
  split; [intros a b c N; apply (at_every_level (fun L => l_seq_model L a b c) (fun k => seq_model k a b c)); [intros; now apply mo_seq|intros; now apply eo_seq|exact N]|].
  intros V zero add mul fuel m e.
  split; [intros N; apply (at_every_level (fun L => l_eval_expr L m e) (fun c => eval_expr c m e)); [intros; now apply mo_eval_expr|intros; now apply eo_eval_expr|exact N]|].
  split; [intros sid s N; apply (at_every_level (fun L => l_view_assign L fuel m sid s e) (fun c => view_assign c fuel m sid s e)); [intros; now apply mo_view_assign|intros; now apply eo_view_assign|exact N]|].
  split; [intros sid s f N; apply (at_every_level (fun L => l_view_inplace L fuel m sid s f e) (fun c => view_inplace c fuel m sid s f e)); [intros; now apply mo_view_inplace|intros; now apply eo_view_inplace|exact N]|].
  split; [intros sid s N; apply (at_every_level (fun L => l_overlap_assign L fuel m sid s e) (fun c => overlap_assign c fuel m sid s e)); [intros; now apply mo_overlap_assign|intros; now apply eo_overlap_assign|exact N]|].
  split; [intros sid es N; apply (at_every_level (fun L => l_array_set L fuel m sid es e) (fun c => array_set c fuel m sid es e)); [intros; now apply mo_array_set|intros; now apply eo_array_set|exact N]|].
  split; [intros sa a sb b N; apply (at_every_level (fun L => l_product zero add mul L fuel m sa a sb b) (fun c => product zero add mul c fuel m sa a sb b)); [intros; now apply mo_product|intros; now apply eo_product|exact N]|].
  split; [intros sa offa ea sb offb eb alpha junk N;
          apply (at_every_level (fun L => l_blas_product zero add mul L m sa offa ea sb offb eb alpha junk) (fun c => blas_product zero add mul c m sa offa ea sb offb eb alpha junk)); [intros; now apply mo_blas|intros; now apply eo_blas|exact N]|].
  split; [intros conv args N; apply (at_every_level (fun L => l_cat L conv args) (fun c => cat conv c args)); [intros; now apply mo_cat|intros; now apply eo_cat|exact N]|].
  intros conv N; apply (at_every_level (fun L => l_as_vector L conv fuel m e) (fun c => as_vector conv c fuel m e)); [intros; now apply mo_as_vector|intros; now apply eo_as_vector|exact N].
Qed.
Print Assumptions C74_correct_calls.

(** Level 2 already has every check of the arguments of [drop_to], [reshape], [seq], [cat] and the BLAS product. *)
Theorem C74_arguments : forall L, (2 <= L)%nat ->
  (forall D s, l_drop_to L D s = drop_to true D s) /\
  (forall s, l_drop_to_scalar L s = drop_to_scalar true s) /\
  (forall s es, l_reshape_ref L s es = reshape_ref true s es) /\
  (forall a b c, l_seq_model L a b c = seq_model true a b c) /\
  (forall (V : Type) (zero : V) (add mul : V -> V -> V) (m : @mem V) sa offa ea sb offb eb alpha junk,
     l_blas_product zero add mul L m sa offa ea sb offb eb alpha junk = blas_product zero add mul true m sa offa ea sb offb eb alpha junk) /\
  (forall (V : Type) (conv : V -> V) (args : list cat_arg), (l_cat L conv args : outcome (list Z * list V)) = cat conv true args).
Proof.
  intros L H.
  assert (E : forall c, lassert L lv_invalid c = dassert true c).
  { intros c. unfold lassert, lv_invalid. destruct L as [|[|L]]; try lia. destruct c; reflexivity. }
  split; [intros D [| | |off []|]; cbn [l_drop_to drop_to]; unfold l_drop_one_level_extents, drop_one_level_extents, l_sd_drop, sd_drop; now rewrite ?E|].
  split; [intros []; cbn [l_drop_to_scalar drop_to_scalar]; now rewrite ?E|].
  split; [intros s es; destruct s; cbn [l_reshape_ref reshape_ref]; now rewrite ?E|].
  split; [intros; unfold l_seq_model, seq_model; now rewrite !E|].
  split.
  - intros V zero add mul m sa offa ea sb offb eb alpha junk. unfold l_blas_product, blas_product. destruct ea as [|? [|? [|]]]; auto. destruct eb as [|? [|? [|]]]; auto.
    unfold l_safe_int_cast, safe_int_cast. now rewrite !E.
  - intros V conv args. unfold l_cat, cat, l_cat_push, cat_push, l_cat_push1, cat_push1. apply eo_bind; [|intros; now rewrite E].
    apply eo_foldO. intros acc [v|vs]; [now rewrite E|]. apply eo_foldO. intros. now rewrite E.
Qed.
Print Assumptions C74_arguments.

(** Below level 3 no subscript is compared with the extents: whatever the indices and however far a slice reaches, a chain of subscripts with
    plain indices, [every] and slices of positive extent and stride does what it does without checks. *)
Definition positive_subscript (u : uarg) : Prop :=
  match u with
  | UIdx _ | UEvery => True
  | USlice _ n => 0 < n
  | UStrided _ n t => 0 < n /\ 0 < t
  | _ => False
  end.
Definition parg (r : rarg) : Prop := match r with RIdx _ => True | RSl _ n t => 0 < n /\ 0 < t | RRng _ => False end.
Definition pos (es : list Z) : Prop := Forall (fun e => 0 < e) es.
Definition tame (s : st) : Prop :=
  match s with
  | SElem _ => True
  | SRef _ es => pos es /\ es <> []
  | SEvery _ es M => pos es /\ (M < length es)%nat
  | SView _ (MId d) => pos (sd_exts d) /\ sd_exts d <> []
  | SProxy _ (MId d) args => pos (sd_exts d) /\ Forall parg args /\ (length args < length (sd_exts d))%nat
  | _ => False
  end.

Section Level2.
Variable L : nat.
Hypothesis HL : (L <= 2)%nat.

Lemma unbounded c : lassert L lv_bounds c = Ok tt.
Proof. unfold lassert, lv_bounds. destruct L as [|[|[|]]]; cbn; try reflexivity. lia. Qed.
Lemma held k : lassert L k true = Ok tt.
Proof. unfold lassert. now rewrite andb_false_r. Qed.
Lemma pos_nonzero es : pos es -> forallb (fun e => negb (e =? 0)) es = true.
Proof. intros H. apply forallb_forall. intros e I. pose proof (proj1 (Forall_forall _ _) H e I). apply negb_true_iff, Z.eqb_neq. cbn in *. lia. Qed.
Lemma infer_pos i es : pos es -> exists d, l_sd_infer L i es = Ok d /\ sd_infer false i es = Ok d /\ sd_exts d = es.
Proof.
  intros H. unfold l_sd_infer, sd_infer. rewrite (pos_nonzero es H), held. cbn [dassert bindO].
  destruct es as [|e [|e' es]]; eexists; repeat split.
Qed.
Lemma lt_true a b : a < b -> (a <? b) = true.
Proof. apply Z.ltb_lt. Qed.
Lemma do_slice_pos : forall args start es ss, Forall parg args ->
  (exists q, l_do_slice L start es ss args = Ok q /\ do_slice false start es ss args = Ok q /\ pos (snd (fst q)) /\ length (snd (fst q)) = length args) \/
  (l_do_slice L start es ss args = UB /\ do_slice false start es ss args = UB).
Proof.
  induction args as [|a args IH]; intros start es ss Ha.
  - destruct es, ss; cbn; auto. left. eexists. repeat split. constructor.
  - inversion Ha as [|? ? H1 H2]; subst. destruct a as [i|s n t|l]; cbn in H1; [| |easy].
    + destruct es as [|e es], ss as [|t ss]; cbn [l_do_slice do_slice]; auto. rewrite unbounded. cbn [dassert bindO].
      destruct (IH (w64 (start + w64 (t * i))) es ss H2) as [[[[x y] z] [-> [-> [P Q]]]]|[-> ->]]; cbn [bindO]; [|auto].
      left. eexists. repeat split; [constructor; [lia|exact P]|cbn in *; lia].
    + destruct H1 as [Hn Ht]. destruct es as [|e es], ss as [|st ss]; cbn [l_do_slice do_slice]; auto.
      rewrite unbounded, (lt_true 0 t Ht), (lt_true 0 n Hn), !held. cbn [dassert bindO].
      destruct (IH (w64 (start + w64 (st * s))) es ss H2) as [[[[x y] z] [-> [-> [P Q]]]]|[-> ->]]; cbn [bindO]; [|auto].
      left. eexists. repeat split; [constructor; [lia|exact P]|cbn in *; lia].
Qed.
Lemma no_rng args : Forall parg args -> existsb is_rng args = false.
Proof. induction 1 as [|a args H _ IH]; [reflexivity|]. cbn. rewrite IH. now destruct a. Qed.

(** Both go on in the same way, and the state is one of those considered. *)
Definition on (x y : outcome st) : Prop := (exists s, x = Ok s /\ y = Ok s /\ tame s) \/ (x = UB /\ y = UB).
Lemma on_ok s : tame s -> on (Ok s) (Ok s).
Proof. left. eauto. Qed.
Lemma on_ub : on UB UB.
Proof. now right. Qed.
Lemma array_slice_pos fuel off d args : Forall parg args -> args <> [] ->
  on (let* m := l_array_slice L fuel (MId d) args in Ok (SView off m)) (let* m := array_slice false fuel (MId d) args in Ok (SView off m)).
Proof.
  intros H Ne. unfold l_array_slice, array_slice, l_default_slicing, default_slicing. rewrite (no_rng args H). cbn [m_desc].
  destruct (do_slice_pos args (sd_start d) (sd_exts d) (sd_strs d) H) as [[[[x y] z] [-> [-> [P Q]]]]|[-> ->]]; cbn [bindO]; [|apply on_ub].
  apply on_ok. split; [exact P|]. cbn in *. intros ->. destruct args; [easy|discriminate].
Qed.
Lemma proxy_at_pos fuel off d args named r : pos (sd_exts d) -> Forall parg args -> (length args < length (sd_exts d))%nat -> parg r ->
  on (l_proxy_at L fuel off (MId d) args named r) (proxy_at false fuel off (MId d) args named r).
Proof.
  intros Hp Ha Hl Hr. unfold l_proxy_at, proxy_at. assert (F : Forall parg (args ++ [r])) by (apply Forall_app; split; auto). cbn [m_desc].
  destruct (Nat.eqb_spec (S (length args)) (length (sd_exts d))) as [E|E]; [apply array_slice_pos; [assumption|now destruct args]|].
  destruct named; [apply on_ub|]. apply on_ok. repeat split; auto. rewrite app_length. cbn. lia.
Qed.
Lemma nth_pos es k : pos es -> (k < length es)%nat -> 0 < nth k es 0.
Proof. intros H Hk. apply (proj1 (Forall_forall _ _) H). now apply nth_In. Qed.
Lemma resolve_pos u dim : positive_subscript u -> 0 < dim -> exists r, resolve u dim = Ok r /\ parg r.
Proof. destruct u; cbn; intros H D; try easy; eexists; split; try reflexivity; cbn; auto; lia. Qed.
Lemma set_last_pos n : forall es, pos es -> 0 < n -> pos (set_last es n).
Proof.
  intros es H Hn. induction es as [|a es IH]; [exact H|]. inversion H; subst. destruct es as [|b es]; [constructor; [assumption|constructor]|].
  change (set_last (a :: b :: es) n) with (a :: set_last (b :: es) n). constructor; [assumption|]. apply IH. assumption.
Qed.
Lemma set_last_nil n es : es <> [] -> set_last es n <> [].
Proof. destruct es as [|a [|b es]]; cbn; easy. Qed.
Lemma hd_nth (es : list Z) : hd 0 es = nth 0 es 0.
Proof. now destruct es. Qed.

Lemma ref_strided_pos fuel off es s n t : pos es -> es <> [] -> 0 < n -> 0 < t -> on (l_ref_strided L fuel off es s n t) (ref_strided false fuel off es s n t).
Proof.
  intros Hp Hn Pn Pt. unfold l_ref_strided, ref_strided. destruct (infer_pos 0 es Hp) as [d [-> [-> E]]]. cbn [bindO].
  destruct (Nat.eqb_spec (length es) 1) as [O1|O1]; [apply array_slice_pos; [repeat constructor; cbn; auto|easy]|].
  apply on_ok. cbn. rewrite E. split; [assumption|]. split; [constructor; [now split|constructor]|]. destruct es as [|? [|]]; cbn in *; try easy; lia.
Qed.
Lemma ref_abs_pos off es s n : pos es -> es <> [] -> 0 < n -> on (l_ref_abs L off es s n) (ref_abs false off es s n).
Proof.
  intros Hp Hn Pn. destruct es as [|e [|e' es]]; [easy| |]; unfold l_ref_abs, ref_abs.
  - rewrite unbounded. cbn [dassert bindO]. apply on_ok. split; [repeat constructor; lia|easy].
  - destruct (infer_pos 0 (e :: e' :: es) Hp) as [d [-> [-> E]]]. cbn [bindO]. apply on_ok. cbn. rewrite E. split; [assumption|]. split; [constructor; [cbn; lia|constructor]|]. cbn. lia.
Qed.

Lemma op_index_pos fuel s u : tame s -> positive_subscript u -> on (l_op_index L fuel s u) (op_index false fuel s u).
Proof.
  destruct s as [p|off es|off es M|off [d|]|off [d|] args]; cbn [tame l_op_index op_index]; intros Hs Hu; try easy; [apply on_ub| | | |].
  - destruct Hs as [Hp Hn]. unfold l_ref_index, ref_index. destruct u as [i|s n|s n t| | | |]; cbn in Hu; try easy.
    + rewrite unbounded. cbn [dassert bindO]. destruct (Nat.eqb_spec (length es) 1) as [O1|O1]; [now apply on_ok|].
      destruct (infer_pos i es Hp) as [d [-> [-> E]]]. cbn [bindO]. apply on_ok. unfold tame, sd_discard. cbn. rewrite E.
      destruct es as [|a [|b es]]; [easy|easy|]. inversion Hp; subst. now split.
    + now apply ref_abs_pos.
    + now apply ref_strided_pos.
    + destruct (Nat.eqb_spec (length es) 1) as [O1|O1]; apply on_ok; split; auto. destruct es as [|? [|]]; cbn in *; try easy; lia.
  - destruct Hs as [Hp Hl]. unfold l_every_index, every_index, l_every_at, every_at. cbv zeta.
    assert (Ne : es <> []) by (destruct es; [cbn in Hl; lia|easy]).
    assert (A : forall r, parg r -> on (let* d := l_sd_infer L 0 es in l_proxy_at L fuel off (MId d) (map (fun e => RSl 0 e 1) (firstn M es)) (negb (is_rng r)) r)
                                       (let* d := sd_infer false 0 es in proxy_at false fuel off (MId d) (map (fun e => RSl 0 e 1) (firstn M es)) (negb (is_rng r)) r)).
    { intros r Hr. destruct (infer_pos 0 es Hp) as [d [-> [-> E]]]. cbn [bindO]. apply proxy_at_pos; auto; rewrite ?E; auto.
      - apply Forall_forall. intros x I. apply in_map_iff in I. destruct I as [e [<- I]]. apply (In_nth _ _ 0) in I. destruct I as [k [Hk <-]].
        rewrite firstn_length in Hk. assert (Hk' : nth k (firstn M es) 0 = nth k es 0).
        { rewrite <- (firstn_skipn M es) at 2. rewrite app_nth1; [reflexivity|rewrite firstn_length; lia]. }
        rewrite Hk'. cbn. split; [apply nth_pos; auto; lia|lia].
      - rewrite map_length, firstn_length. lia. }
    destruct u as [i|s n|s n t| | | |]; cbn in Hu; try easy.
    + destruct (Nat.eqb_spec (S M) (length es)) as [E|E]; [|apply on_ub]. rewrite unbounded. cbn [dassert bindO].
      destruct (last es 0 =? 0); [apply on_ub|]. apply on_ok. split; [apply set_last_pos; auto; lia|now apply set_last_nil].
    + destruct (Nat.eqb_spec (S M) (length es)) as [E|E]; [|apply A; cbn; lia]. rewrite unbounded. cbn [dassert bindO].
      destruct (last es 0 =? 0); [apply on_ub|]. apply on_ok. split; [apply set_last_pos; auto|now apply set_last_nil].
    + cbn [resolve bindO]. apply A. exact Hu.
    + destruct (Nat.eqb_spec (S M) (length es)) as [E|E]; apply on_ok; split; auto. lia.
  - destruct Hs as [Hp Hn]. unfold l_view_index, view_index. cbv zeta. cbn [m_desc].
    assert (P0 : 0 < hd 0 (sd_exts d)) by (rewrite hd_nth; apply nth_pos; auto; destruct (sd_exts d); [easy|cbn; lia]).
    assert (B : forall r, parg r -> on (if Nat.eqb (length (sd_exts d)) 1 then let* m' := l_array_slice L fuel (MId d) [r] in Ok (SView off m') else Ok (SProxy off (MId d) [r]))
                                       (if Nat.eqb (length (sd_exts d)) 1 then let* m' := array_slice false fuel (MId d) [r] in Ok (SView off m') else Ok (SProxy off (MId d) [r]))).
    { intros r Hr. destruct (Nat.eqb_spec (length (sd_exts d)) 1) as [O1|O1]; [apply array_slice_pos; [repeat constructor; auto|easy]|].
      apply on_ok. split; [assumption|]. split; [now constructor|]. destruct (sd_exts d) as [|? [|]]; cbn in *; try easy; lia. }
    destruct u as [i|s n|s n t| | | |]; cbn in Hu; try easy.
    + rewrite unbounded. cbn [dassert bindO]. destruct (Nat.eqb_spec (length (sd_exts d)) 1) as [O1|O1].
      * cbn [l_m_map m_map bindO]. now apply on_ok.
      * cbn [l_m_drop_first m_drop_first bindO]. apply on_ok. unfold tame, sd_discard. cbn. destruct (sd_exts d) as [|a [|b es]]; [easy|easy|]. inversion Hp; subst. now split.
    + cbn [resolve bindO]. apply B. cbn. lia.
    + cbn [resolve bindO]. apply B. exact Hu.
    + destruct (Nat.eqb_spec (length (sd_exts d)) 1) as [O1|O1]; apply on_ok; cbn; auto. split; [assumption|]. split.
      * constructor; [cbn; lia|constructor].
      * destruct (sd_exts d) as [|? [|]]; cbn in *; try easy; lia.
  - destruct Hs as [Hp [Ha Hl]]. unfold l_proxy_index, proxy_index. cbn [m_desc].
    destruct (resolve_pos u (nth (length args) (sd_exts d) 0) Hu) as [r [-> Hr]]; [now apply nth_pos|]. cbn [bindO]. now apply proxy_at_pos.
Qed.
Lemma run_pos fuel : forall us s, tame s -> Forall positive_subscript us -> l_run L fuel s us = run false fuel s us /\ l_run L fuel s us <> Abort.
Proof.
  unfold l_run, run. induction us as [|u us IH]; intros s Hs Hu; cbn [foldO]; [split; [reflexivity|discriminate]|]. inversion Hu; subst.
  destruct (op_index_pos fuel s u Hs) as [[s' [-> [-> Hs']]]|[-> ->]]; cbn [bindO]; auto. split; [reflexivity|discriminate].
Qed.
End Level2.

Theorem C74_subscripts : forall L fuel off es us, (L <= 2)%nat -> es <> [] -> Forall (fun e => 0 < e) es -> Forall positive_subscript us ->
  l_run L fuel (SRef off es) us = run false fuel (SRef off es) us /\ l_run L fuel (SRef off es) us <> Abort.
Proof. intros L fuel off es us HL Hn Hp Hu. apply run_pos; auto. now split. Qed.
Print Assumptions C74_subscripts.

(** At level 1 nothing is checked before the assignment itself: subscripts, dropping dimensions and expressions behave as without checks. *)
Theorem C74_level_one : forall L, (L <= 1)%nat ->
  (forall fuel s us, l_run L fuel s us = run false fuel s us) /\
  (forall D s, l_drop_to L D s = drop_to false D s) /\
  (forall (V : Type) (m : @mem V) e, l_eval_expr L m e = eval_expr false m e).
Proof.
  intros L H. split; [intros; now apply eo_run|]. split; [intros; now apply eo_drop_to|]. intros. now apply eo_eval_expr.
Qed.
Print Assumptions C74_level_one.


(** At level 2 an index beyond the end goes unnoticed and a slice without elements, a dimension that cannot be dropped and a step of zero do not; different extents in an
    expression are noticed from level 3 on; at level 1 only an assignment that leaves elements of the source over. *)
Example C74_ex :
  (l_run 2 10 (SRef 0 [2; 3]) [UIdx 0; UIdx 5] = Ok (SElem 10) /\ l_run 3 10 (SRef 0 [2; 3]) [UIdx 0; UIdx 5] = Abort) /\
  (l_run 1 10 (SRef 0 [2; 3]) [UEvery; UStrided 0 0 1] = Ok (SView 0 (MId (SD 0 [2; 0] [1; 2]))) /\ l_run 2 10 (SRef 0 [2; 3]) [UEvery; UStrided 0 0 1] = Abort) /\
  (l_drop_to 2 1 (SRef 0 [2; 3]) = Abort /\ l_drop_to 1 1 (SRef 0 [2; 3]) <> Abort) /\
  (l_seq_model 2 0 5 0 = Abort /\ l_seq_model 1 0 5 0 = UB) /\
  (let e := EBin Z.add (ELeaf 0 (SRef 0 [2])) (ELeaf 0 (SRef 0 [3])) in
   l_eval_expr 3 [[1; 2; 3]] e = Abort /\ exists r, l_eval_expr 2 [[1; 2; 3]] e = Ok r) /\
  (let e := ELeaf 0 (SRef 0 [3]) in
   l_view_assign 1 10 [[1; 2; 3]; [0; 0]] 1 (SRef 0 [2]) e = Abort /\ l_view_assign 0 10 [[1; 2; 3]; [0; 0]] 1 (SRef 0 [2]) e = Ok [[1; 2; 3]; [1; 2]]) /\
  Forall positive_subscript [UIdx 7; UStrided 9 2 4].
Proof.
  repeat split; try (vm_compute; reflexivity); try (vm_compute; discriminate).
  - eexists. vm_compute. reflexivity.
  - repeat constructor; lia.
Qed.
