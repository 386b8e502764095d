(** * PropView: properties C01-C13 (addressing, slicing, iteration, axes).
    Only statements, closed by lemmas proved elsewhere; examples show that the hypotheses are met. *)

From Coq Require Import ZArith List Bool Lia Permutation.
From Verif Require Import Base Spec Desc Slice SliceSpec Lemmas RunProofs ViewThms ViewThms2 ViewThms3 ViewThms4.
Import ListNotations.
Open Scope Z_scope.

(** ** C01 *)
Theorem addressing_bijective : forall es, es <> [] -> all_nonneg es -> zprod es < W ->
  desc_size es = zprod es /\
  (forall ix, in_range es ix -> 0 <= desc_at es ix < desc_size es) /\
  (forall ix iy, in_range es ix -> in_range es iy -> desc_at es ix = desc_at es iy -> ix = iy) /\
  (forall p, 0 <= p < desc_size es -> exists ix, in_range es ix /\ desc_at es ix = p).
Proof. exact desc_bijective. Qed.
Print Assumptions addressing_bijective.

Example addressing_bijective_ex : ([2; 3; 4] <> []) /\ all_nonneg [2; 3; 4] /\ zprod [2; 3; 4] < W /\
  desc_at [2; 3; 4] [1; 2; 3] = 23 /\ in_range [2; 3; 4] [1; 2; 3].
Proof. repeat split; try discriminate; repeat constructor; try lia. Qed.

(** When the product of the extents does not fit in [index_t], the size wraps: an array of 2^32 x 2^32 has
    size 0 although (0,0) is an in-range index tuple. *)
Theorem addressing_overflow_refuted : exists es ix, es <> [] /\ all_pos es /\ in_range es ix /\
  desc_size es = 0 /\ ~ (desc_at es ix < desc_size es).
Proof.
  exists [2 ^ 32; 2 ^ 32], [0; 0]. split; [discriminate|]. split; [repeat constructor|].
  split; [repeat constructor; try lia|]. split; [reflexivity|]. vm_compute. intros H. discriminate H.
Qed.
Print Assumptions addressing_overflow_refuted.

(** ** C02 *)
Theorem owning_iteration_column_major : forall fuel off es, es <> [] -> all_pos es -> zprod es < W ->
  positions fuel (SRef off es) = Ok (map (fun k => off + desc_at es (digits es k)) (iota (zprod es))).
Proof. exact ref_iteration. Qed.
Print Assumptions owning_iteration_column_major.

(** ... and the digits of k really are the k-th index tuple of the column-major enumeration. *)
Theorem digits_enumerate_column_major : forall es, all_pos es -> colmajor es = map (digits es) (iota (zprod es)).
Proof. exact colmajor_digits. Qed.
Print Assumptions digits_enumerate_column_major.

Example owning_iteration_ex : positions 0 (SRef 10 [2; 3]) = Ok [10; 11; 12; 13; 14; 15] /\
  colmajor [2; 3] = [[0; 0]; [1; 0]; [0; 1]; [1; 1]; [0; 2]; [1; 2]] /\ all_pos [2; 3] /\ zprod [2; 3] < W.
Proof. repeat split; repeat constructor; lia. Qed.

(** ** C03 *)
Theorem strided_iteration_complete : forall fuel d, sd_exts d <> [] -> all_pos (sd_exts d) ->
  length (sd_strs d) = length (sd_exts d) -> 0 <= sd_start d < W -> zprod (sd_exts d) < W ->
  (forall e s, sd_exts d = [e] -> sd_strs d = [s] -> 0 < s /\ s * e < W) ->
  (Z.to_nat (zprod (sd_exts d)) < fuel)%nat ->
  sd_walk fuel d = Ok (map (fun k => sd_at d (digits (sd_exts d) k)) (iota (zprod (sd_exts d)))).
Proof. exact walk_digits. Qed.
Print Assumptions strided_iteration_complete.

(** The end is not reached earlier: any walk that ends after visiting [ps] has not ended within [length ps] loop tests. *)
Theorem strided_iteration_not_before : forall fuel d ps, sd_walk fuel d = Ok ps ->
  forall f, (f <= length ps)%nat -> sd_walk f d = Timeout.
Proof. exact walk_not_before. Qed.
Print Assumptions strided_iteration_not_before.

Example strided_iteration_ex :
  sd_walk 5 (SD 3 [2; 2] [4; 10]) = Ok [3; 7; 13; 17] /\ sd_walk 4 (SD 3 [2; 2] [4; 10]) = Timeout /\
  sd_walk 4 (SD 1 [3] [5]) = Ok [1; 6; 11] /\ all_pos [2; 2] /\ (0 < 5 /\ 5 * 3 < W).
Proof. repeat split; repeat constructor; lia. Qed.

(** A zero extent before the last dimension divides by zero. *)
Theorem zero_extent_iteration_refuted : exists d, all_nonneg (sd_exts d) /\ sd_size d = 0 /\ forall fuel, sd_walk (S fuel) d = UB.
Proof. exists (SD 0 [0; 2] [1; 0]). split; [repeat constructor; lia|]. split; [reflexivity|]. intros. reflexivity. Qed.
Print Assumptions zero_extent_iteration_refuted.

(** A one-dimensional view with one element whose stride wrapped to 0 is iterated as if it were empty; such a view
    is produced, with all checks on, by slicing a stride-2 view with stride 2^63. *)
Theorem zero_stride_iteration_refuted : exists s,
  run true 10 (SRef 0 [4]) [UStrided 0 2 2] = Ok s /\
  exists s', run true 10 s [UStrided 0 1 (2 ^ 63)] = Ok s' /\ dims s' = Some [1] /\ positions 10 s' = Ok [].
Proof. eexists. split; [vm_compute; reflexivity|]. eexists. split; [vm_compute; reflexivity|]. split; vm_compute; reflexivity. Qed.
Print Assumptions zero_stride_iteration_refuted.

(** ** C04, C07: any subscript chain, on any source obtained by any history of subscripts; the arguments may
    be indices, slices, bounded slices, [every] and index ranges. *)
Theorem slice_selects_requested : forall chk es steps us, good_shape es -> ok_steps (afull es) (steps ++ [us]) ->
  exists fuel0, forall fuel, (fuel0 <= fuel)%nat -> exists s shape ps s',
    foldO (run chk fuel) steps (SRef 0 es) = Ok s /\ dims s = Some shape /\ positions fuel s = Ok ps /\
    run chk fuel s us = Ok s' /\ dims s' = Some (result_shape us shape) /\
    positions fuel s' = Ok (map (aview_at (shape, ps)) (cart (sels us shape))) /\
    (forall ix, In ix (cart (sels us shape)) -> in_range shape ix) /\
    Z.of_nat (length ps) = zprod shape /\
    aselects (afull es) steps = (shape, ps).
Proof. exact slice_denotes. Qed.
Print Assumptions slice_selects_requested.

Theorem slice_elements : forall chk es steps u us, good_shape es -> ok_steps (afull es) (steps ++ [u :: us]) -> is_index u = false ->
  exists fuel0, forall fuel, (fuel0 <= fuel)%nat -> exists s shape ps s' shape' ps',
    foldO (run chk fuel) steps (SRef 0 es) = Ok s /\ dims s = Some shape /\ positions fuel s = Ok ps /\
    run chk fuel s (u :: us) = Ok s' /\ dims s' = Some shape' /\ positions fuel s' = Ok ps' /\
    length shape' = length shape /\
    (forall ix, in_range shape' ix ->
       in_range shape (src_index (u :: us) ix) /\
       nth (Z.to_nat (cm_pos shape' ix)) ps' 0 = nth (Z.to_nat (cm_pos shape (src_index (u :: us) ix))) ps 0).
Proof. exact slice_elementwise. Qed.
Print Assumptions slice_elements.

Ltac ok_tac := vm_compute; repeat (split || constructor); try discriminate; try reflexivity; auto.

Example slice_history_ex :
  good_shape [4; 5; 3] /\
  ok_steps (afull [4; 5; 3]) ([[UStrided 0 2 3; UBound 1 9; UEvery]; [USlice 0 2; URange [3; 0; 3]; UIdx 2]]) /\
  (let* s := foldO (run true 100) [[UStrided 0 2 3; UBound 1 9; UEvery]; [USlice 0 2; URange [3; 0; 3]; UIdx 2]] (SRef 0 [4; 5; 3]) in
   let* ps := positions 100 s in Ok (dims s, ps)) = Ok (Some [2; 3; 1], [56; 59; 44; 47; 56; 59]).
Proof. split; [ok_tac|]. split; [ok_tac|reflexivity]. Qed.

(** ** C05: any two successive slicings that select the slices [ps] and then [qs] (as [slice(s, n, t)], bounded slices, [every]
    or ranges) denote the same elements as any slicing that selects the composed slices. *)
Theorem slice_of_slice_composes : forall chk es steps us vs ws ps qs, good_shape es ->
  ok_steps (afull es) (steps ++ [us; vs]) -> ok_steps (afull es) (steps ++ [ws]) ->
  selects us (fst (aselects (afull es) steps)) ps -> selects vs (fst (aselects (afull es) (steps ++ [us]))) qs ->
  selects ws (fst (aselects (afull es) steps)) (compose_all ps qs) ->
  exists fuel0, forall fuel, (fuel0 <= fuel)%nat -> exists s s1 s2 s12 shape pos,
    foldO (run chk fuel) steps (SRef 0 es) = Ok s /\
    run chk fuel s us = Ok s1 /\ run chk fuel s1 vs = Ok s2 /\ run chk fuel s ws = Ok s12 /\
    dims s2 = Some shape /\ dims s12 = Some shape /\
    positions fuel s2 = Ok pos /\ positions fuel s12 = Ok pos.
Proof. exact slices_compose. Qed.
Print Assumptions slice_of_slice_composes.

(** With plain strided slices only, the composed slicing is valid as soon as its strides are not longer than the dimensions. *)
Theorem strided_slices_compose : forall chk es steps ps qs, good_shape es ->
  ok_steps (afull es) (steps ++ [map strided ps; map strided qs]) ->
  Forall2 (fun p e => snd p <= e) (compose_all ps qs) (fst (aselects (afull es) steps)) ->
  exists fuel0, forall fuel, (fuel0 <= fuel)%nat -> exists s s1 s2 s12 shape pos,
    foldO (run chk fuel) steps (SRef 0 es) = Ok s /\
    run chk fuel s (map strided ps) = Ok s1 /\ run chk fuel s1 (map strided qs) = Ok s2 /\
    run chk fuel s (map strided (compose_all ps qs)) = Ok s12 /\
    dims s2 = Some shape /\ dims s12 = Some shape /\
    positions fuel s2 = Ok pos /\ positions fuel s12 = Ok pos.
Proof. exact slices_compose'. Qed.
Print Assumptions strided_slices_compose.

Example slice_of_slice_3d_ex :
  ok_steps (afull [9; 6; 4]) ([] ++ [[UStrided 1 4 2; UBound 1 4; USlice 1 3]; [UStrided 1 2 2; URange [1; 3]; UStrided 0 2 2]]) /\
  ok_steps (afull [9; 6; 4]) ([] ++ [[UStrided 3 2 4; UBoundS 2 2 2; UStrided 1 2 2]]) /\
  selects [UStrided 1 4 2; UBound 1 4; USlice 1 3] [9; 6; 4] [(1, 4, 2); (1, 4, 1); (1, 3, 1)] /\
  selects [UStrided 1 2 2; URange [1; 3]; UStrided 0 2 2] [4; 4; 3] [(1, 2, 2); (1, 2, 2); (0, 2, 2)] /\
  selects [UStrided 3 2 4; UBoundS 2 2 2; UStrided 1 2 2] [9; 6; 4]
    (compose_all [(1, 4, 2); (1, 4, 1); (1, 3, 1)] [(1, 2, 2); (1, 2, 2); (0, 2, 2)]).
Proof. split; [ok_tac|]. split; [ok_tac; left; reflexivity|]. repeat split; reflexivity. Qed.

Example slice_of_slice_ex :
  ok_steps (afull [9; 6]) ([] ++ [map strided [(1, 4, 2); (0, 3, 2)]; map strided [(1, 2, 2); (1, 2, 1)]]) /\
  compose_all [(1, 4, 2); (0, 3, 2)] [(1, 2, 2); (1, 2, 1)] = [(3, 2, 4); (2, 2, 2)] /\
  Forall2 (fun p e => snd p <= e) [(3, 2, 4); (2, 2, 2)] [9; 6].
Proof. split; [ok_tac|]. split; [reflexivity|ok_tac]. Qed.

(** ** C06: checked build *)
Theorem out_of_range_always_rejected : forall es steps us, good_shape es -> ok_steps (afull es) steps ->
  Forall2 (fun u e => ok_arg u e \/ bad_arg u e) us (fst (aselects (afull es) steps)) ->
  ~ Forall2 ok_arg us (fst (aselects (afull es) steps)) -> loses true us = false ->
  exists fuel0, forall fuel, (fuel0 <= fuel)%nat -> exists s,
    foldO (run true fuel) steps (SRef 0 es) = Ok s /\ run true fuel s us = Abort.
Proof. exact out_of_range_rejected. Qed.
Print Assumptions out_of_range_always_rejected.

Example out_of_range_ex :
  ok_steps (afull [4; 5]) [[UStrided 0 2 3; UEvery]] /\
  Forall2 (fun u e => ok_arg u e \/ bad_arg u e) [UEvery; UStrided 1 3 2] (fst (aselects (afull [4; 5]) [[UStrided 0 2 3; UEvery]])) /\
  ~ Forall2 ok_arg [UEvery; UStrided 1 3 2] (fst (aselects (afull [4; 5]) [[UStrided 0 2 3; UEvery]])).
Proof.
  split; [ok_tac|]. replace (fst (aselects (afull [4; 5]) [[UStrided 0 2 3; UEvery]])) with [2; 5] by reflexivity. split.
  - constructor; [left; exact I|]. constructor; [right; cbn; unfold W; lia|constructor].
  - intros H. inversion H as [|? ? ? ? _ H2]; subst. inversion H2 as [|? ? ? ? H3 _]; subst. cbn in H3. lia.
Qed.

(** Without the no-wrap condition the check does not reject: slice(1,3,2^63) of a dimension of extent 4 is accepted and its
    element 1 lies 2^63 elements further. *)
Theorem bounds_check_wraps_refuted : exists es s n t s',
  0 <= s /\ 0 < n /\ 0 < t < W /\ zprod es <= s + (n - 1) * t /\
  run true 10 (SRef 0 es) [UStrided s n t] = Ok s' /\
  exists p, run true 10 s' [UIdx 1] = Ok (SElem p) /\ zprod es < p.
Proof.
  exists [4], 1, 3, (2 ^ 63), (SView 0 (MId (SD 1 [3] [2 ^ 63]))). split; [lia|]. split; [lia|]. split; [unfold W; lia|].
  split; [vm_compute; discriminate|]. split; [vm_compute; reflexivity|].
  exists (1 + 2 ^ 63). split; vm_compute; reflexivity.
Qed.
Print Assumptions bounds_check_wraps_refuted.

(** ** C08 *)
Theorem index_chain_reaches_element : forall chk es steps, good_shape es -> ok_steps (afull es) steps ->
  exists fuel0, forall fuel, (fuel0 <= fuel)%nat -> exists s shape ps,
    foldO (run chk fuel) steps (SRef 0 es) = Ok s /\ dims s = Some shape /\ positions fuel s = Ok ps /\
    (forall ix, in_range shape ix -> run chk fuel s (map UIdx ix) = Ok (SElem (nth (Z.to_nat (cm_pos shape ix)) ps 0))).
Proof. exact index_chain. Qed.
Print Assumptions index_chain_reaches_element.

Theorem index_drops_dimension : forall chk es steps e shape ps i us,
  good_shape es -> ok_steps (afull es) (steps ++ [UIdx i :: us]) ->
  aselects (afull es) steps = (e :: shape, ps) -> us = map (fun _ => UEvery) shape ->
  exists fuel0, forall fuel, (fuel0 <= fuel)%nat -> exists s s' ps',
    foldO (run chk fuel) steps (SRef 0 es) = Ok s /\ run chk fuel s (UIdx i :: us) = Ok s' /\
    dims s' = Some shape /\ positions fuel s' = Ok ps' /\
    forall ix, in_range shape ix -> nth (Z.to_nat (cm_pos shape ix)) ps' 0 = nth (Z.to_nat (cm_pos (e :: shape) (i :: ix))) ps 0.
Proof. exact partial_index. Qed.
Print Assumptions index_drops_dimension.

Example index_chain_ex :
  ok_steps (afull [3; 4]) [[URange [2; 0]; UStrided 1 2 2]] /\
  (let* s := run true 100 (SRef 0 [3; 4]) [URange [2; 0]; UStrided 1 2 2] in
   let* e := run true 100 s (map UIdx [1; 1]) in Ok (dims s, e)) = Ok (Some [2; 2], SElem 9) /\
  ok_steps (afull [3; 4]) ([] ++ [[UIdx 1; UEvery]]).
Proof. split; [ok_tac|]. split; [reflexivity|ok_tac]. Qed.

(** ** C09 *)
Theorem every_shortcut_same_as_generic : forall chk fuel off es us,
  good_shape es -> Forall2 ok_arg us es -> loses true us = false ->
  forallb is_index us = false -> zprod (result_shape us es) <= MAXSZ ->
  (Z.to_nat (zprod es) < fuel)%nat -> (Z.to_nat (zprod (result_shape us es)) < fuel)%nat ->
  exists s1 s2, run chk fuel (SRef off es) us = Ok s1 /\
    run chk fuel (SView off (MId (SD 0 es (infer_strides 1 es)))) us = Ok s2 /\
    dims s1 = Some (result_shape us es) /\ dims s2 = Some (result_shape us es) /\
    exists ps, positions fuel s1 = Ok ps /\ positions fuel s2 = Ok ps.
Proof. exact every_shortcut. Qed.
Print Assumptions every_shortcut_same_as_generic.

Example every_shortcut_ex :
  Forall2 ok_arg [UEvery; UEvery; USlice 1 2] [2; 3; 4] /\ loses true [UEvery; UEvery; USlice 1 2] = false /\
  run true 100 (SRef 0 [2; 3; 4]) [UEvery; UEvery; USlice 1 2] = Ok (SRef 6 [2; 3; 2]) /\
  (let* s := run true 100 (SView 0 (MId (SD 0 [2; 3; 4] (infer_strides 1 [2; 3; 4])))) [UEvery; UEvery; USlice 1 2] in positions 100 s)
    = Ok [6; 7; 8; 9; 10; 11; 12; 13; 14; 15; 16; 17].
Proof. split; [ok_tac|]. repeat split; reflexivity. Qed.

(** ** C10 *)
Theorem bounded_slice_clamped : forall s m d, 0 <= s -> 0 <= m -> 0 <= d < W ->
  exists n, eval_bounded s m d = (s, n) /\
    map (fun k => s + k) (iota n) = filter (fun x => x <? d) (map (fun k => s + k) (iota m)) /\
    0 <= n <= m /\ (n = 0 <-> d <= s \/ m = 0).
Proof. exact bounded_clamped. Qed.
Print Assumptions bounded_slice_clamped.

(** Strided: in bounds and not longer than requested always; maximal only under [bounded_stride_ok]. *)
Theorem bounded_strided_slice_clamped_partial : forall s m t d, 0 <= s -> 0 <= m -> 0 < t -> 0 <= d < W - 1 ->
  exists n, eval_bounded_strided s m t d = Ok (s, n, t) /\ 0 <= n <= m /\
    (forall k, 0 <= k < n -> s + k * t < d) /\
    ((s < d -> bounded_stride_ok s m t d) ->
       map (fun k => s + k * t) (iota n) = filter (fun x => x <? d) (map (fun k => s + k * t) (iota m)) /\
       (n = 0 <-> d <= s \/ m = 0)).
Proof. exact bounded_strided_inbounds. Qed.
Print Assumptions bounded_strided_slice_clamped_partial.

Example bounded_ex : eval_bounded 2 10 5 = (2, 3) /\ eval_bounded_strided 0 10 2 5 = Ok (0, 3, 2) /\
  bounded_stride_ok 0 10 2 5 /\ eval_bounded 7 10 5 = (7, 0).
Proof. repeat split. right; left. reflexivity. Qed.

(** Indices 0 and 3 are below 4, but slice(0, at_most(10), 3) keeps only one of them, and slice(0, at_most(10), 6) keeps none. *)
Theorem bounded_strided_count_refuted : exists s m t d, 0 <= s < d /\ 0 < m /\ 0 < t /\
  eval_bounded_strided s m t d = Ok (s, 1, t) /\ filter (fun x => x <? d) (map (fun k => s + k * t) (iota m)) = [0; 3] /\
  eval_bounded_strided 0 10 6 4 = Ok (0, 0, 6).
Proof. exists 0, 10, 3, 4. repeat split; lia. Qed.
Print Assumptions bounded_strided_count_refuted.

(** ** C11 *)
Theorem drop_to_preserves_elements : forall chk es steps D,
  good_shape es -> ok_steps (afull es) steps -> forallb (forallb no_range) steps = true ->
  exists fuel0, forall fuel, (fuel0 <= fuel)%nat -> exists s shape ps,
    foldO (run chk fuel) steps (SRef 0 es) = Ok s /\ dims s = Some shape /\ positions fuel s = Ok ps /\
    ((1 <= D <= length shape)%nat -> (length shape - D <= count_units shape)%nat ->
     exists s' shape', drop_to chk D s = Ok s' /\ dims s' = Some shape' /\ positions fuel s' = Ok ps /\
       length shape' = D /\ filter (fun e => negb (e =? 1)) shape' = filter (fun e => negb (e =? 1)) shape).
Proof. exact drop_to_ok. Qed.
Print Assumptions drop_to_preserves_elements.

Theorem drop_to_scalar_contiguous : forall chk fuel off es, es <> [] -> all_pos es -> zprod es = 1 ->
  exists p, drop_to_scalar chk (SRef off es) = Ok p /\ positions fuel (SRef off es) = Ok [p].
Proof. exact drop_scalar_ref. Qed.
Print Assumptions drop_to_scalar_contiguous.

Example drop_to_ex : ok_steps (afull [3; 4; 2]) [[USlice 1 1; UBoundS 0 2 2; UIdx 1]] /\
  (let* s := run true 100 (SRef 0 [3; 4; 2]) [USlice 1 1; UBoundS 0 2 2; UIdx 1] in
   let* ps := positions 100 s in let* s' := drop_to true 1 s in let* ps' := positions 100 s' in Ok (dims s, ps, dims s', ps'))
  = Ok (Some [1; 2; 1], [13; 19], Some [2], [13; 19]).
Proof. split; [ok_tac|reflexivity]. Qed.

(** drop_to<0> of a one-element strided view returns the first element of the storage, not the viewed one. *)
Theorem drop_to_scalar_view_refuted : exists es us s p q,
  run true 10 (SRef 0 es) us = Ok s /\ positions 10 s = Ok [p] /\ drop_to_scalar true s = Ok q /\ q <> p.
Proof.
  exists [3], [UStrided 2 1 1], (SView 0 (MId (SD 2 [1] [1]))), 2, 0. repeat split; try (vm_compute; reflexivity). lia.
Qed.
Print Assumptions drop_to_scalar_view_refuted.

(** ** C12 *)
Theorem rows_and_columns : forall chk es steps r c, good_shape es -> ok_steps (afull es) steps -> forallb (forallb no_range) steps = true ->
  fst (aselects (afull es) steps) = [r; c] ->
  exists fuel0, forall fuel, (fuel0 <= fuel)%nat -> exists s ps rows cols,
    foldO (run chk fuel) steps (SRef 0 es) = Ok s /\ dims s = Some [r; c] /\ positions fuel s = Ok ps /\
    axis_items chk fuel 0 s = Ok rows /\ axis_items chk fuel 1 s = Ok cols /\
    Forall (fun x => dims x = Some [c]) rows /\ Forall (fun x => dims x = Some [r]) cols /\
    mapO (positions fuel) rows = Ok (map (fun i => map (fun j => nth (Z.to_nat (i + r * j)) ps 0) (iota c)) (iota r)) /\
    mapO (positions fuel) cols = Ok (map (fun j => map (fun i => nth (Z.to_nat (i + r * j)) ps 0) (iota r)) (iota c)) /\
    Permutation (concat (map (fun i => map (fun j => nth (Z.to_nat (i + r * j)) ps 0) (iota c)) (iota r))) ps /\
    concat (map (fun j => map (fun i => nth (Z.to_nat (i + r * j)) ps 0) (iota r)) (iota c)) = ps.
Proof. exact rows_columns. Qed.
Print Assumptions rows_and_columns.

Theorem last_axis_items : forall chk es steps front l, good_shape es -> ok_steps (afull es) steps -> forallb (forallb no_range) steps = true ->
  fst (aselects (afull es) steps) = front ++ [l] -> front <> [] ->
  exists fuel0, forall fuel, (fuel0 <= fuel)%nat -> exists s ps items,
    foldO (run chk fuel) steps (SRef 0 es) = Ok s /\ dims s = Some (front ++ [l]) /\ positions fuel s = Ok ps /\
    axis_items chk fuel (length front) s = Ok items /\
    (~ In 1 front -> Forall (fun x => dims x = Some front) items) /\
    mapO (positions fuel) items
      = Ok (map (fun k => map (fun h => nth (Z.to_nat (cm_pos (front ++ [l]) (h ++ [k]))) ps 0) (colmajor front)) (iota l)).
Proof. exact axis_last_items. Qed.
Print Assumptions last_axis_items.

Example rows_and_columns_ex : ok_steps (afull [4; 3]) [[UStrided 0 2 2; UEvery]] /\
  fst (aselects (afull [4; 3]) [[UStrided 0 2 2; UEvery]]) = [2; 3] /\
  (let* s := run true 100 (SRef 0 [4; 3]) [UStrided 0 2 2; UEvery] in
   let* rows := axis_items true 100 0 s in let* cols := axis_items true 100 1 s in
   let* a := mapO (positions 100) rows in let* b := mapO (positions 100) cols in Ok (a, b))
  = Ok ([[0; 4; 8]; [2; 6; 10]], [[0; 2]; [4; 6]; [8; 10]]).
Proof. split; [ok_tac|]. split; reflexivity. Qed.

(** axis<2> of a 1 x 3 x 2 array: the items have extents (3,1) instead of (1,3). *)
Theorem axis_unit_extent_refuted : exists s x, axis_items true 100 2 (SRef 0 [1; 3; 2]) = Ok (x :: s) /\ dims x = Some [3; 1].
Proof. vm_compute. eexists. eexists. split; reflexivity. Qed.
Print Assumptions axis_unit_extent_refuted.

(** ** C13 *)
Theorem axis_iterator_laws : forall p n, 0 <= p -> 0 <= n -> p + n < 2 ^ 63 ->
  axis_minus (axis_plus p n) n = p /\
  (forall m, 0 <= m -> p + n + m < 2 ^ 63 -> axis_plus (axis_plus p n) m = axis_plus p (n + m)) /\
  (axis_lt p (axis_plus p n) = true <-> 0 < n) /\
  axis_diff (axis_plus p n) p = - n.
Proof. exact axis_laws. Qed.
Print Assumptions axis_iterator_laws.

Example axis_iterator_ex : axis_plus 3 4 = 7 /\ axis_minus 7 4 = 3 /\ axis_lt 3 7 = true.
Proof. repeat split. Qed.

(** (it + n) - it = n, the random access law, does not hold: the difference has the opposite sign. *)
Theorem axis_iterator_difference_refuted : exists p n, 0 <= p /\ 0 < n /\ axis_diff (axis_plus p n) p <> n /\
  axis_lt p (axis_plus p n) = true /\ ~ (0 < axis_diff (axis_plus p n) p).
Proof. exists 0, 1. vm_compute. repeat split; discriminate. Qed.
Print Assumptions axis_iterator_difference_refuted.
