(** * PropExprSeq: property C54 (assignment through views whose elements repeat or overlap the operands), and C19, C20, C22 without
    the hypothesis of distinct positions.

    Statements over ExprSeq: [in_order sid g 0 ps m] does one write per element of the view, in column-major order, the [k]-th one
    of the value [g] computes from the memory reached so far; [occ 0 ps p] lists the elements of the view at position [p]. *)

From Coq Require Import ZArith List Bool Lia.
From Verif Require Import Base Spec Desc Slice SliceSpec Expr ExprSpec RunProofs ExprProofs ExprThms ExprSeq PropExpr.
Import ListNotations.
Open Scope Z_scope.

(** ** exact, whatever the view repeats and the expression reads *)
Theorem assignment_in_order : forall (V : Type) chk fuel fu (m : @mem V) sid s es ps e,
  is_view fuel s es ps -> inside m sid ps -> expr_ok fuel m e es -> (length ps < fu)%nat ->
  exists m', view_assign chk fu m sid s e = Ok m' /\ in_order sid (fun mk k _ => value fuel mk e k) 0 ps m = Some m'.
Proof. intros. eapply seq_view_assign; eauto. Qed.
Print Assumptions assignment_in_order.

Theorem inplace_in_order : forall (V : Type) chk fuel fu (m : @mem V) sid s es ps f e,
  is_view fuel s es ps -> inside m sid ps -> expr_ok fuel m e es -> (length ps < fu)%nat ->
  exists m', view_inplace chk fu m sid s f e = Ok (m', ps) /\
    in_order sid (fun mk k p => lift2 f (cell mk sid p) (value fuel mk e k)) 0 ps m = Some m'.
Proof. intros. eapply seq_view_inplace; eauto. Qed.
Print Assumptions inplace_in_order.

(** ** repeated positions, operands elsewhere *)
(** Assignment: the last element at a position decides; positions outside the view keep their value. *)
Theorem repeated_assignment_last_wins : forall (V : Type) chk fuel fu (m : @mem V) sid s es ps e,
  is_view fuel s es ps -> inside m sid ps -> expr_ok fuel m e es -> no_overlap fuel sid ps e -> (length ps < fu)%nat ->
  exists m', view_assign chk fu m sid s e = Ok m' /\ last_write_wins (value fuel m e) sid ps m m'.
Proof. intros. eapply assign_last_wins; eauto. Qed.
Print Assumptions repeated_assignment_last_wins.

(** With [overlap] the same holds whatever the expression reads. *)
Theorem repeated_overlap_last_wins : forall (V : Type) chk fuel fu (m : @mem V) sid s es ps e,
  is_view fuel s es ps -> inside m sid ps -> expr_ok fuel m e es -> (length ps < fu)%nat ->
  exists m', overlap_assign chk fu m sid s e = Ok m' /\ last_write_wins (value fuel m e) sid ps m m'.
Proof. intros. eapply overlap_last_wins; eauto. Qed.
Print Assumptions repeated_overlap_last_wins.

(** A scalar is written to every element, repeated or not. *)
Theorem repeated_fill : forall (V : Type) fuel fu (m : @mem V) sid s es ps v,
  is_view fuel s es ps -> inside m sid ps -> (length ps < fu)%nat ->
  exists m', view_fill fu m sid s v = Ok (m', ps) /\ written m m' sid ps (fun _ => Some v).
Proof. intros. eapply fill_all; eauto. Qed.
Print Assumptions repeated_fill.

(** In-place operations accumulate: a position listed several times takes all of its operands, in order (a histogram). *)
Theorem repeated_inplace_accumulates : forall (V : Type) chk fuel fu (m : @mem V) sid s es ps f e,
  is_view fuel s es ps -> inside m sid ps -> expr_ok fuel m e es -> no_overlap fuel sid ps e -> (length ps < fu)%nat ->
  exists m', view_inplace chk fu m sid s f e = Ok (m', ps) /\ accumulated f (value fuel m e) sid ps m m'.
Proof. intros. eapply inplace_accumulates; eauto. Qed.
Print Assumptions repeated_inplace_accumulates.

(** A unary operation is applied once per listing. *)
Theorem repeated_unary_iterates : forall (V : Type) fuel fu (m : @mem V) sid s es ps op,
  is_view fuel s es ps -> inside m sid ps -> (length ps < fu)%nat ->
  exists m', view_update fu m sid s op = Ok (m', ps) /\ map (@length V) m' = map (@length V) m /\
    (forall sid' q, 0 <= q -> (sid' <> sid \/ ~ In q ps) -> cell m' sid' q = cell m sid' q) /\
    (forall p, 0 <= p -> cell m' sid p = Nat.iter (count_occ Z.eq_dec ps p) (lift1 op) (cell m sid p)).
Proof. intros. eapply update_accumulates; eauto. Qed.
Print Assumptions repeated_unary_iterates.

(** ** from the subscripts: [a[idx] op= e] on a vector of [n] elements, [idx] any list of valid indices *)
Theorem indexed_inplace : forall (V : Type) chk n idx, 0 < n <= MAXSZ -> idx <> [] -> Forall (fun i => 0 <= i < n) idx -> Z.of_nat (length idx) <= MAXSZ ->
  exists fuel0, forall fuel, (fuel0 <= fuel)%nat -> exists s, run chk fuel (SRef 0 [n]) [URange idx] = Ok s /\
    is_view fuel s [Z.of_nat (length idx)] idx /\
    forall (m : @mem V) sid c f e, nth_error m sid = Some c -> Z.of_nat (length c) = n -> expr_ok fuel m e [Z.of_nat (length idx)] ->
      no_overlap fuel sid idx e ->
      exists m', view_inplace chk fuel m sid s f e = Ok (m', idx) /\ accumulated f (value fuel m e) sid idx m m'.
Proof.
  intros V chk n idx Hn Hne F L.
  assert (G : good_shape [n]). { split; [discriminate|]. split; [repeat constructor; lia|]. cbn. lia. }
  assert (O : ok_steps (afull [n]) [[URange idx]]).
  { cbn. repeat split; auto. - repeat constructor; cbn; auto. - unfold result_shape; cbn. lia. }
  destruct (reachable_views_qualify chk [n] [[URange idx]] G O) as [f0 H]. exists (max f0 (S (length idx))). intros fuel Hf.
  destruct (H fuel ltac:(lia)) as [s [shape [ps [R [A [Hv [Fp _]]]]]]]. cbn [foldO] in R.
  assert (Es : shape = [Z.of_nat (length idx)]). { cbn in A. injection A as <- _. reflexivity. }
  assert (Ep : ps = idx).
  { assert (A2 := f_equal snd A). cbn [snd] in A2. rewrite <- A2. clear -Hn F. cbn [aselects aselect fst snd sels sel afull cart flat_map zprod fold_right].
    rewrite app_nil_r, map_map. rewrite <- (map_id idx) at 2. apply map_ext_in. intros i Hi. rewrite Forall_forall in F. apply F in Hi.
    unfold aview_at, afull. cbn [fst snd cm_pos zprod fold_right]. unfold iota.
    rewrite (nth_indep _ 0 (Z.of_nat 0)) by (rewrite map_length, seq_length; lia).
    rewrite map_nth, seq_nth by lia. lia. }
  subst shape ps. exists s. split; [destruct (run chk fuel (SRef 0 [n]) [URange idx]); cbn in R; congruence|]. split; [exact Hv|].
  intros m sid c f e Hc Hlc K N. eapply inplace_accumulates; eauto; [|lia]. exists c. split; auto. rewrite Hlc. exact F.
Qed.
Print Assumptions indexed_inplace.

(** ** examples *)
(** [counts[idx] += w] with [idx = (2, 0, 2, 2)]; the view repeats position 2 and stands for elements of storage 0. *)
Definition ex_idx : st := SView 0 (MVec (SD 0 [4] [1]) [2; 0; 2; 2]).
Definition ex_mem4 : @mem Z := [[1; 2; 3]; [10; 20; 40; 80]].
Lemma ex_idx_view : is_view 5 ex_idx [4] [2; 0; 2; 2].
Proof. repeat split; try discriminate; try reflexivity. repeat constructor; lia. Qed.
Lemma ex_idx_inside : inside ex_mem4 0 [2; 0; 2; 2].
Proof. exists [1; 2; 3]. split; [reflexivity|]. repeat constructor; cbn; lia. Qed.
Lemma ex_w_ok : expr_ok 5 ex_mem4 (ELeaf 1 (SRef 0 [4])) [4].
Proof.
  econstructor; [repeat split; try discriminate; try reflexivity; repeat constructor; lia|]. exists [10; 20; 40; 80]. split; [reflexivity|].
  repeat constructor; cbn; lia.
Qed.
Lemma ex_w_apart : no_overlap 5 0 [2; 0; 2; 2] (ELeaf 1 (SRef 0 [4]) : @expr Z).
Proof. intros k p Hk Hp. do 4 (destruct k as [|k]; [cbn; intros [[= ? ?]|[]]|]). cbn in Hk. lia. Qed.

Example repeated_ex :
  run true 20 (SRef 0 [3]) [URange [2; 0; 2; 2]] = Ok ex_idx /\ ~ NoDup [2; 0; 2; 2] /\
  occ 0 [2; 0; 2; 2] 2 = [0; 2; 3]%nat /\ occ 0 [2; 0; 2; 2] 1 = [] /\
  view_inplace true 5 ex_mem4 0 ex_idx Z.add (ELeaf 1 (SRef 0 [4])) = Ok ([[21; 2; 133]; [10; 20; 40; 80]], [2; 0; 2; 2]) /\
  view_assign true 5 ex_mem4 0 ex_idx (ELeaf 1 (SRef 0 [4])) = Ok [[20; 2; 80]; [10; 20; 40; 80]] /\
  overlap_assign true 5 ex_mem4 0 ex_idx (EBin Z.mul (ELeaf 0 ex_idx) (ELeaf 1 (SRef 0 [4]))) = Ok [[20; 2; 240]; [10; 20; 40; 80]] /\
  view_update 5 ex_mem4 0 ex_idx (Z.mul 2) = Ok ([[2; 2; 24]; [10; 20; 40; 80]], [2; 0; 2; 2]) /\
  view_fill 5 ex_mem4 0 ex_idx 7 = Ok ([[7; 2; 7]; [10; 20; 40; 80]], [2; 0; 2; 2]).
Proof.
  repeat split; try reflexivity. intros N. inversion N as [|? ? H _]. apply H. cbn. tauto.
Qed.

(** The last element of the view at position 2 is the fourth one. *)
Example last_write_ex : exists m', view_assign true 5 ex_mem4 0 ex_idx (ELeaf 1 (SRef 0 [4])) = Ok m' /\
  cell m' 0 2 = value 5 ex_mem4 (ELeaf 1 (SRef 0 [4])) 3.
Proof.
  destruct (repeated_assignment_last_wins Z true 5 5 ex_mem4 0 ex_idx [4] _ _ ex_idx_view ex_idx_inside ex_w_ok ex_w_apart) as [m' [E [_ [_ H]]]]; [cbn; lia|].
  exists m'. split; auto. apply (H 3%nat 2); [reflexivity|]. intros j Hj. do 4 (destruct j as [|j]; [lia|]). destruct j; discriminate.
Qed.

(** Overlap without [overlap]: [a[slice(1, 2)] = a[slice(0, 2)]] copies the first element all the way. *)
Example in_order_ex : view_assign true 5 ex_mem 0 (SRef 1 [2]) (ELeaf 0 (SRef 0 [2])) = Ok [[1; 1; 1; 4; 5; 6]; [10; 20; 30]] /\
  in_order 0 (fun mk k _ => value 5 mk (ELeaf 0 (SRef 0 [2])) k) 0 [1; 2] ex_mem = Some [[1; 1; 1; 4; 5; 6]; [10; 20; 30]].
Proof. split; reflexivity. Qed.
