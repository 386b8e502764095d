(** * PropAxis: C10 and C12 in full: exactly how many indices a bounded strided slice keeps, and the items of any axis. *)

From Coq Require Import ZArith List Bool Lia Permutation.
From Verif Require Import Base Spec Desc Slice SliceSpec Lemmas RunProofs ViewThms3 AxisProofs.
Import ListNotations.
Open Scope Z_scope.

(** [slice(s, at_most(m), t)] on a dimension of extent [d] should keep the [n'] indices below [d]; it keeps [n] of them: all,
    or all but the last.  It keeps all exactly under [bounded_stride_ok] (or when there is none). *)
Theorem bounded_strided_slice_exact : forall s m t d, 0 <= s -> 0 <= m -> 0 < t -> 0 <= d < W - 1 ->
  exists n n', eval_bounded_strided s m t d = Ok (s, n, t) /\
    filter (fun x => x <? d) (map (fun k => s + k * t) (iota m)) = map (fun k => s + k * t) (iota n') /\
    0 <= n /\ n' - 1 <= n <= n' /\
    (n = n' <-> (s < d -> (d - s) mod t = 0 \/ (d - s) mod t = t - 1 \/ m <= (d - s) / t)).
Proof. exact bounded_strided_exact_l. Qed.
Print Assumptions bounded_strided_slice_exact.

Example bounded_strided_slice_exact_ex :
  eval_bounded_strided 1 10 4 11 = Ok (1, 2, 4) /\ filter (fun x => x <? 11) (map (fun k => 1 + k * 4) (iota 10)) = [1; 5; 9] /\
  eval_bounded_strided 1 2 4 11 = Ok (1, 2, 4) /\ filter (fun x => x <? 11) (map (fun k => 1 + k * 4) (iota 2)) = [1; 5].
Proof. repeat split; reflexivity. Qed.

(** [axis<A>(x)] of any array or view without index ranges, [A] being the number of extents in [front]: item k consists of the
    elements whose A-th index is k, in column-major order of the other indices; together the items hold every element once.
    For axis 0 the items have the remaining extents.  For the other axes they have the extents obtained from (front, 1, back) by
    removing the first 1, which is front ++ back if no extent of front is 1.  With an axis that is neither the first nor the
    last one, no item can be obtained: it does not compile on a contiguous array, and on a view the index is lost (undefined behaviour). *)
Theorem axis_items_any_axis : forall chk es steps front l back,
  good_shape es -> ok_steps (afull es) steps -> forallb (forallb no_range) steps = true ->
  fst (aselects (afull es) steps) = front ++ l :: back -> front ++ back <> [] ->
  exists fuel0, forall fuel, (fuel0 <= fuel)%nat -> exists s ps,
    foldO (run chk fuel) steps (SRef 0 es) = Ok s /\ dims s = Some (front ++ l :: back) /\ positions fuel s = Ok ps /\
    (front = [] \/ back = [] -> exists items,
       axis_items chk fuel (length front) s = Ok items /\
       mapO (positions fuel) items
         = Ok (map (fun k => map (fun h => nth (Z.to_nat (cm_pos (front ++ l :: back) (firstn (length front) h ++ k :: skipn (length front) h))) ps 0)
                                 (colmajor (front ++ back))) (iota l)) /\
       Permutation (concat (map (fun k => map (fun h => nth (Z.to_nat (cm_pos (front ++ l :: back) (firstn (length front) h ++ k :: skipn (length front) h))) ps 0)
                                 (colmajor (front ++ back))) (iota l))) ps /\
       (front = [] -> Forall (fun x => dims x = Some back) items) /\
       (front <> [] -> forall a b, front ++ 1 :: back = a ++ 1 :: b -> ~ In 1 a -> Forall (fun x => dims x = Some (a ++ b)) items)) /\
    (front <> [] -> back <> [] -> (forall k, 0 <= k < l -> axis_at chk fuel (length front) s k = UB) /\ axis_items chk fuel (length front) s = UB).
Proof.
  exact axis_items_l.
Qed.
Print Assumptions axis_items_any_axis.

(** Last axis of a 2 x 3 x 2 strided view of a 4 x 3 x 2 array, and its middle axis; and unit extents shift. *)
Example axis_items_any_axis_ex :
  ok_steps (afull [4; 3; 2]) [[UStrided 0 2 2; UEvery; UEvery]] /\
  fst (aselects (afull [4; 3; 2]) [[UStrided 0 2 2; UEvery; UEvery]]) = [2; 3] ++ 2 :: [] /\
  (let* s := run true 100 (SRef 0 [4; 3; 2]) [UStrided 0 2 2; UEvery; UEvery] in
   let* items := axis_items true 100 2 s in let* ps := mapO (positions 100) items in Ok (map dims items, ps))
  = Ok ([Some [2; 3]; Some [2; 3]], [[0; 2; 4; 6; 8; 10]; [12; 14; 16; 18; 20; 22]]) /\
  fst (aselects (afull [4; 3; 2]) [[UStrided 0 2 2; UEvery; UEvery]]) = [2] ++ 3 :: [2] /\
  (let* s := run true 100 (SRef 0 [4; 3; 2]) [UStrided 0 2 2; UEvery; UEvery] in axis_items true 100 1 s) = UB /\
  (let* items := axis_items true 100 0 (SRef 0 [2; 1; 3]) in let* ps := mapO (positions 100) items in Ok (map dims items, ps))
  = Ok ([Some [1; 3]; Some [1; 3]], [[0; 2; 4]; [1; 3; 5]]) /\
  (let* items := axis_items true 100 2 (SRef 0 [1; 3; 2]) in let* ps := mapO (positions 100) items in Ok (map dims items, ps))
  = Ok ([Some [3; 1]; Some [3; 1]], [[0; 1; 2]; [3; 4; 5]]).
Proof.
  split; [|repeat split; vm_compute; reflexivity]. cbn [ok_steps]. split; [|split; [reflexivity|exact I]].
  split; [|split; [reflexivity|vm_compute; discriminate]].
  repeat constructor; cbn; lia.
Qed.
