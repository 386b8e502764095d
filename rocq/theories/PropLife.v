(** * PropLife: properties C14-C18 (nested lists, construction, assignment, moves, builders).
    Only statements, closed by lemmas proved elsewhere; examples show that the hypotheses are met. *)

From Coq Require Import ZArith List Bool Lia.
From Verif Require Import Base Spec Desc Lemmas Life LifeSpec LifeProofs LifeList LifeSim LifeThms.
Import ListNotations.
Open Scope Z_scope.

Lemma fits_bool es : match es with [] => false | _ => forallb (Z.leb 0) es && (zprod es <? W) end = true -> fits es.
Proof.
  destruct es as [|e es]; [discriminate|]. intros H. apply andb_true_iff in H as [H1 H2]. split; [discriminate|]. split.
  - apply Forall_forall. intros z Hz. rewrite forallb_forall in H1. apply H1 in Hz. apply Z.leb_le in Hz. exact Hz.
  - apply Z.ltb_lt. exact H2.
Qed.
(** Discharges the side conditions of the example programs. *)
Ltac demo1 := lazymatch goal with
  | |- fits _ => apply fits_bool; vm_compute; reflexivity
  | |- rect _ _ _ => vm_compute; repeat (split || constructor)
  | |- afree _ _ => reflexivity
  | |- avar _ _ = _ => reflexivity
  | |- avar _ _ <> _ => vm_compute; discriminate
  | |- src_ok _ _ => vm_compute; try exact I; try discriminate
  | |- (_ < _)%Z => vm_compute; reflexivity
  | |- (_ <= _)%nat => vm_compute; repeat constructor
  | |- (_ = _ :> Z) => vm_compute; reflexivity
  | |- (_ <> _ :> Z) => vm_compute; discriminate
  | |- True => exact I
  end.
Ltac demo_end := cbn [ok_prog]; intros; exact I.

(** ** C14 *)
(** A rectangular list: extents are its lengths and position [desc_at es ix] of the new storage
    holds [l[i0][i1]...]; or an exception propagates and nothing is left behind. *)
Theorem nested_list_defines_array : forall V thr nt chk N es (l : @nested V N) (w : world), (1 <= N)%nat -> rect N es l -> zprod es < W ->
  (exists k' vals, ctor_list thr nt chk N l w = (ROk (Arr (Some (length (blocks w))) es), World (blocks w ++ [Some (map Some vals)]) k') /\
     length vals = Z.to_nat (zprod es) /\
     forall ix, in_range es ix -> nth_error vals (Z.to_nat (desc_at es ix)) = nested_at N ix l) \/
  (exists k', ctor_list thr nt chk N l w = (RThrow, World (blocks w) k')) \/
  (nt = false /\ exists k', ctor_list thr nt chk N l w = (RThrow, World (blocks w ++ [None]) k')).
Proof. exact @list_ctor_elements. Qed.
Print Assumptions nested_list_defines_array.

Theorem ragged_list_rejected : forall V thr nt N (l : @nested V N) (w : world), (forall es, ~ rect N es l) ->
  exists w', ctor_list thr nt true N l w = (RAbort, w').
Proof. intros V thr nt. exact (@ctor_list_rejects V thr nt). Qed.
Print Assumptions ragged_list_rejected.

Example nested_list_ex : rect 2 [2; 3] ([[1; 2; 3]; [4; 5; 6]] : nested 2) /\ zprod [2; 3] < W /\
  ctor_list (fun _ => false) false true 2 ([[1; 2; 3]; [4; 5; 6]] : nested 2) (World [] 0)
   = (ROk (Arr (Some 0%nat) [2; 3]), World [Some (map Some [1; 4; 2; 5; 3; 6])] 7) /\
  (forall es, ~ rect 2 es ([[1; 2; 3]; [4; 5]] : nested 2)) /\ (forall es, ~ rect 2 es ([[]; []] : @nested Z 2)).
Proof.
  split; [cbn; repeat (split || constructor; try lia)|]. split; [reflexivity|]. split; [reflexivity|].
  split; intros [|e [|e' [|? ?]]]; cbn; try tauto; intros (_ & _ & H); inversion H as [|? ? H1 H2]; subst; inversion H2; subst; cbn in *.
  all: repeat match goal with H : _ /\ _ |- _ => destruct H end; try lia.
  all: repeat match goal with H : Forall _ (_ :: _) |- _ => inversion H; subst; clear H end; try discriminate.
Qed.

(** ** C15 *)
(** From any state, with any throw points: either exactly the new block, full of the specified elements, is added, or the exception propagates and
    every block is as before (the new one, if it was obtained, is released; objects destroyed twice or never would be [RUB]). *)
Theorem constructor_from_dimensions : forall V thr nt ns ts (s : @source V) es (w : world),
  fits es -> dims_fit ts es -> src_ok s (zprod es) -> (nt = true -> ns = true) ->
  (exists k', ctor_dims thr nt ns ts s es w = (ROk (Arr (Some (length (blocks w))) es), World (blocks w ++ [Some (map Some (src_vals s (zprod es)))]) k')) \/
  (exists k', ctor_dims thr nt ns ts s es w = (RThrow, World (blocks w) k')) \/
  (nt = false /\ exists k', ctor_dims thr nt ns ts s es w = (RThrow, World (blocks w ++ [None]) k')).
Proof. exact @ctor_dims_spec. Qed.
Print Assumptions constructor_from_dimensions.

Theorem constructor_converting : forall V thr nt ns (vs : list V) es (w : world),
  fits es -> Z.of_nat (length vs) = zprod es -> (nt = true -> ns = true) ->
  (exists k', ctor_conv thr nt ns vs es w = (ROk (Arr (Some (length (blocks w))) es), World (blocks w ++ [Some (map Some vs)]) k')) \/
  (exists k', ctor_conv thr nt ns vs es w = (RThrow, World (blocks w) k')) \/
  (nt = false /\ exists k', ctor_conv thr nt ns vs es w = (RThrow, World (blocks w ++ [None]) k')).
Proof. exact @ctor_conv_spec. Qed.
Print Assumptions constructor_converting.

Theorem constructor_copy : forall V thr nt a (vs : list V) (w : world),
  fits (aexts a) -> Z.of_nat (length vs) = zprod (aexts a) ->
  match adata a with Some b => cells w b = Some (map Some vs) | None => vs = [] end ->
  (exists k', ctor_copy thr nt a w = (ROk (Arr (Some (length (blocks w))) (aexts a)), World (blocks w ++ [Some (map Some vs)]) k')) \/
  (exists k', ctor_copy thr nt a w = (RThrow, World (blocks w) k')) \/
  (nt = false /\ exists k', ctor_copy thr nt a w = (RThrow, World (blocks w ++ [None]) k')).
Proof. exact @copy_ctor_any. Qed.
Print Assumptions constructor_copy.

(** No exception is swallowed: a constructor that succeeds performed one allocation and, per element, one construction (and one evaluation
    of the source, if it has one), and none of them threw.  [src_ticks]: 0 for a value, 1 for an iterator, generator, range, expression. *)
Theorem constructor_exceptions_propagate : forall V thr (w w' : @world V) a,
  (forall t s es, fits es -> ctor_dims thr false false t s es w = (ROk a, w') ->
     clock w' = (clock w + (1 + Z.to_nat (zprod es) * (src_ticks s + 1)))%nat /\ forall j, (clock w <= j < clock w')%nat -> thr j = false) /\
  (forall vs es, fits es -> ctor_conv thr false false vs es w = (ROk a, w') ->
     clock w' = (clock w + (1 + Z.to_nat (zprod es) * 2))%nat /\ forall j, (clock w <= j < clock w')%nat -> thr j = false) /\
  (forall s, fits (aexts s) -> ctor_copy thr false s w = (ROk a, w') ->
     clock w' = (clock w + (1 + Z.to_nat (zprod (aexts s))))%nat /\ forall j, (clock w <= j < clock w')%nat -> thr j = false) /\
  (forall chk N es l, rect N es l -> ctor_list thr false chk N l w = (ROk a, w') ->
     clock w' = (clock w + (1 + Z.to_nat (zprod es)))%nat /\ forall j, (clock w <= j < clock w')%nat -> thr j = false).
Proof. exact @ctors_propagate. Qed.
Print Assumptions constructor_exceptions_propagate.

Example constructor_ex : fits [2; 2] /\ dims_fit [DInt; DSize] [2; 2] /\ src_ok (SrcSeq [7; 8; 9; 10]) (zprod [2; 2]) /\
  ctor_dims (fun _ => false) false false [DInt; DSize] (SrcSeq [7; 8; 9; 10]) [2; 2] (World [] 0) = (ROk (Arr (Some 0%nat) [2; 2]), World [Some (map Some [7; 8; 9; 10])] 9) /\
  (* the fourth construction throws *)
  ctor_dims (fun k => Nat.eqb k 8) false false [DInt; DSize] (SrcSeq [7; 8; 9; 10]) [2; 2] (World [] 0) = (RThrow, World [None] 9) /\
  (* allocation fails *)
  ctor_dims (fun k => Nat.eqb k 0) false false [DInt; DSize] (SrcSeq [7; 8; 9; 10]) [2; 2] (World [] 0) = (RThrow, World [] 1).
Proof. repeat split; try discriminate; try reflexivity; repeat constructor; lia. Qed.

(** The exception of an iterator, generator or expression reaches [std::terminate] when the element type itself cannot throw. *)
Theorem nothrow_element_throwing_source_refuted : exists thr (vs : list Z) es w w', fits es /\ Z.of_nat (length vs) = zprod es /\
  ctor_conv thr true false vs es w = (RTerm, w').
Proof. exists (fun k => Nat.eqb k 3), [1; 2; 3], [3], (World [] 0). eexists. repeat split; try discriminate; try reflexivity; repeat constructor; lia. Qed.
Print Assumptions nothrow_element_throwing_source_refuted.

(** [array<T,2>(65536u, 65536u)] with 32-bit unsigned dimensions obtains storage for 0 elements and constructs 2^32. *)
Theorem unsigned_dimensions_refuted : exists t es, fits es /\ dims_alloc t es = Some 0%nat /\ desc_size es = 2 ^ 32 /\
  forall V thr nt ns (v : V) (w : world), thr (clock w) = false -> (nt = true \/ thr (S (clock w)) = false) ->
    fst (ctor_dims thr nt ns t (SrcValue v) es w) = RUB.
Proof. exact dims_overflow_ub. Qed.
Print Assumptions unsigned_dimensions_refuted.

(** [array<T,3>(n, 65536, 65536)] with [std::size_t n = 2]: the product 2^33 is a value of [std::size_t], but the right fold multiplies the two
    [int]s first: undefined, before anything is allocated.  [array<T,3>(0, 65536, 65536)] with [int]s: also, although the array is empty. *)
Theorem mixed_dimensions_refuted : exists ts es ts' es',
  fits es /\ Forall2 (fun t e => e < dim_max t) ts es /\ zprod es < widest ts /\
  fits es' /\ Forall2 (fun t e => e < dim_max t) ts' es' /\ zprod es' = 0 /\
  forall V thr nt ns (v : V) (w : world), ctor_dims thr nt ns ts (SrcValue v) es w = (RUB, w) /\ ctor_dims thr nt ns ts' (SrcValue v) es' w = (RUB, w).
Proof.
  exists [DSize; DInt; DInt], [2; 65536; 65536], [DInt; DInt; DInt], [0; 65536; 65536].
  repeat split; try discriminate; repeat constructor; lia.
Qed.
Print Assumptions mixed_dimensions_refuted.
(** The same dimensions with the types the other way round are accepted. *)
Example mixed_dimensions_ex : dims_fit [DInt; DInt; DSize] [2; 65536; 65536] /\ dims_alloc [DSize; DSize; DSize] [0; 65536; 65536] = Some 0%nat.
Proof. repeat split. Qed.

(** ** C16 *)
(** [a = b]: equal sizes overwrite in place; otherwise the old elements are destroyed, the old storage released, the new block owned.
    When an operation throws, [a] is unchanged or holds a prefix of the new and the rest of the old elements. *)
Theorem copy_assignment_partial : forall V thr nt a (olds vs : list V) s bs k, holds bs a olds -> holds bs s vs ->
  (forall b, adata a = Some b -> adata s <> Some b) ->
  (exists k', assign_copy thr nt a s (World bs k)
     = (ROk (Arr (if zprod (aexts a) =? zprod (aexts s) then adata a else Some (length bs)) (aexts s)),
        World (if zprod (aexts a) =? zprod (aexts s)
               then match adata a with Some b => upd_nat bs b (Some (map Some vs)) | None => bs end
               else match adata a with Some b => upd_nat bs b None | None => bs end ++ [Some (map Some vs)]) k')) \/
  (exists k', assign_copy thr nt a s (World bs k) = (RThrow, World bs k')) \/
  (exists b k' j, adata a = Some b /\ zprod (aexts a) = zprod (aexts s) /\
     assign_copy thr nt a s (World bs k) = (RThrow, World (upd_nat bs b (Some (map Some (firstn j vs ++ skipn j olds)))) k')) \/
  (exists k', zprod (aexts a) <> zprod (aexts s) /\
     assign_copy thr nt a s (World bs k) = (RThrow, World (bs ++ [Some (repeat None (length vs))]) k')).
Proof. exact @assign_copy_outcomes. Qed.
Print Assumptions copy_assignment_partial.

Theorem converting_assignment_partial : forall V thr nt ns a (olds vs : list V) es bs k, (nt = true -> ns = true) ->
  holds bs a olds -> fits es -> Z.of_nat (length vs) = zprod es ->
  (exists k', assign_conv thr nt ns a vs es (World bs k)
     = (ROk (Arr (if zprod (aexts a) =? zprod es then adata a else Some (length bs)) es),
        World (if zprod (aexts a) =? zprod es
               then match adata a with Some b => upd_nat bs b (Some (map Some vs)) | None => bs end
               else match adata a with Some b => upd_nat bs b None | None => bs end ++ [Some (map Some vs)]) k')) \/
  (exists k', assign_conv thr nt ns a vs es (World bs k) = (RThrow, World bs k')) \/
  (exists b k' j, adata a = Some b /\ zprod (aexts a) = zprod es /\
     assign_conv thr nt ns a vs es (World bs k) = (RThrow, World (upd_nat bs b (Some (map Some (firstn j vs ++ skipn j olds)))) k')) \/
  (exists k', zprod (aexts a) <> zprod es /\
     assign_conv thr nt ns a vs es (World bs k) = (RThrow, World (bs ++ [Some (repeat None (length vs))]) k')).
Proof. exact @assign_conv_outcomes. Qed.
Print Assumptions converting_assignment_partial.

Theorem assignment_exceptions_propagate : forall V thr a gen g es, fits (aexts a) -> fits es -> (forall k, ticks thr g (gen k)) ->
  forall (w : @world V) c w', assign_from thr false a gen es w = (ROk c, w') ->
   (zprod (aexts a) = zprod es -> clock w' = (clock w + Z.to_nat (zprod es) * (g + 1))%nat) /\
   (zprod (aexts a) <> zprod es -> clock w' = (clock w + (1 + Z.to_nat (zprod es) * (g + 1)))%nat) /\
   (forall j, (clock w <= j < clock w')%nat -> thr j = false).
Proof. exact @assign_from_ticks. Qed.
Print Assumptions assignment_exceptions_propagate.

Example assignment_ex :
  let w := World [Some (map Some [1; 2]); Some (map Some [7; 8; 9])] 0 in
  let a := Arr (Some 0%nat) [2] in let s := Arr (Some 1%nat) [3] in
  holds (blocks w) a [1; 2] /\ holds (blocks w) s [7; 8; 9] /\
  assign_copy (fun _ => false) false a s w = (ROk (Arr (Some 2%nat) [3]), World [None; Some (map Some [7; 8; 9]); Some (map Some [7; 8; 9])] 4) /\
  assign_conv (fun k => Nat.eqb k 3) false false a [5; 6] [2] w = (RThrow, World [Some (map Some [5; 2]); Some (map Some [7; 8; 9])] 4).
Proof. cbn. repeat split; try discriminate; try reflexivity; repeat constructor; lia. Qed.

(** The storage obtained for the new elements is lost when constructing them throws (C16, last part). *)
Theorem assignment_leaks_storage_refuted : exists thr (bs : list (@block Z)) a s w', holds bs a [1; 2] /\ holds bs s [7; 8; 9] /\
  assign_copy thr false a s (World bs 0) = (RThrow, w') /\ cells w' (length bs) = Some [None; None; None].
Proof.
  exists (fun k => Nat.eqb k 2), [Some (map Some [1; 2]); Some (map Some [7; 8; 9])], (Arr (Some 0%nat) [2]), (Arr (Some 1%nat) [3]).
  eexists. repeat split; try discriminate; try reflexivity; repeat constructor; lia.
Qed.
Print Assumptions assignment_leaks_storage_refuted.

(** ** C17, C18: whole programs *)
(** Any program over any number of array and builder variables that respects [ok_prog] runs to its end for any throw points; every
    variable holds what the value-level execution says; two variables never share storage; no object is outside
    the variables' storage and, unless an assignment threw, neither is storage. *)
Theorem every_program_balanced_partial : forall V thr nt ns, (nt = true -> ns = true) -> forall chk (p : @prog V) n,
  ok_prog p (repeat None n) -> pushes_safe nt p ->
  exists log w st ast,
    runs thr nt ns chk p (World [] 0, repeat None n) = (ROk log, (w, st)) /\
    aexec p log (repeat None n) ast /\
    Forall2 (repr' w) st ast /\ no_sharing st /\ no_lost_object w st /\
    (assign_threw p log = false -> no_lost_storage w st).
Proof. exact @program_spec. Qed.
Print Assumptions every_program_balanced_partial.

Theorem every_program_releases_all : forall V thr nt ns chk (p : @prog V) n, (nt = true -> ns = true) ->
  ok_prog p (repeat None n) -> pushes_safe nt p ->
  forall log (w : world) st, runs thr nt ns chk p (World [] 0, repeat None n) = (ROk log, (w, st)) ->
  (forall x, var st x = None) ->
  (forall b c, cells w b = Some c -> Forall (fun v => v = None) c) /\
  (assign_threw p log = false -> forall b, cells w b = None).
Proof. exact @all_released. Qed.
Print Assumptions every_program_releases_all.

(** A program with a list, a move, a copy, a builder, an assignment and a reshape. *)
Definition demo : list (@op Z) :=
  [OList 0 2 ([[1; 2]; [3; 4]] : nested 2); OMove 1 0; OCopy 2 1; OBuilder 3 [2]; OPush 3 false 5; OPush 3 true 6; OFinish 4 3;
   OAssign 2 4; OReshape 5 1 [4]; ODestroy 0; ODestroy 1; ODestroy 2; ODestroy 3; ODestroy 4; ODestroy 5].
Example demo_runs : runs (fun _ => false) true true true (pseq demo PEnd) (World [] 0, repeat None 6)
  = (ROk (repeat false 15), (World [None; None; None; None] 16, repeat None 6)).
Proof. vm_compute. reflexivity. Qed.
(** It meets the hypotheses. *)
Example demo_ok : ok_prog (pseq demo PEnd) (repeat None 6) /\ pushes_safe true (pseq demo PEnd).
Proof.
  split; [|vm_compute; repeat split]. unfold demo. cbn [pseq ok_prog ok_op].
  split; [split; [demo1|split; [demo1|exists [2; 2]; split; demo1]]|]. split; [|demo_end].
  split; [split; demo1|]. split; [|demo_end].
  split; [split; [demo1|do 2 eexists; demo1]|]. split; [|demo_end].
  split; [split; demo1|]. split; [|demo_end].
  split; [do 2 eexists; split; [demo1|demo1]|]. split; [|demo_end].
  split; [do 2 eexists; split; [demo1|demo1]|]. split; [|demo_end].
  split; [split; [demo1|do 2 eexists; split; demo1]|]. split; [|demo_end].
  split; [right; do 2 eexists; split; [demo1|eexists; left; eexists; demo1]|]. split; [|demo_end].
  split; [split; [demo1|split; [demo1|eexists; split; [left; eexists; demo1|demo1]]]|]. split; [|demo_end].
  do 6 (split; [demo1|split; [|demo_end]]). exact I.
Qed.

(** A throwing copy, caught, after which both variables are still usable. *)
Definition demo_catch : @prog Z :=
  PDo (ONew 0 [DInt] (SrcValue 7) [2]) (PDo (OCopy 1 0) (pseq [ODestroy 1; ODestroy 0] PEnd) (pseq [OMove 1 0; OAssignConv 0 [5] [1]; ODestroy 0; ODestroy 1] PEnd)) PEnd.
Example demo_catch_ok : ok_prog demo_catch (repeat None 2) /\
  runs (fun k => Nat.eqb k 4) false false true demo_catch (World [] 0, repeat None 2)
   = (ROk [false; true; false; false; false; false], (World [None; None; None] 8, [None; None])).
Proof.
  split; [|vm_compute; reflexivity]. unfold demo_catch. cbn [pseq ok_prog ok_op].
  split; [split; [demo1|split; [demo1|split; [repeat split|demo1]]]|]. split; [|demo_end].
  split; [split; [demo1|do 2 eexists; demo1]|]. split.
  - do 2 (split; [demo1|split; [|demo_end]]). exact I.
  - intros st' [->|[]]. split; [split; demo1|]. split; [|demo_end].
    split; [split; [demo1|split; [demo1|eexists; right; split; demo1]]|]. split; [|demo_end].
    do 2 (split; [demo1|split; [|demo_end]]). exact I.
Qed.

(** Copying from a moved-from array reads through a null pointer; so does assigning it an array of its former size. *)
Theorem moved_from_copy_refuted : exists (os : list (@op Z)), forall chk,
  (forall h, fst (runs (fun _ => false) true true chk (pseq (os ++ [OCopy 2 0]) h) (World [] 0, repeat None 3)) = RUB) /\
  (forall h, fst (runs (fun _ => false) true true chk (pseq (os ++ [OAssign 0 1]) h) (World [] 0, repeat None 3)) = RUB) /\
  ok_prog (pseq os PEnd) (repeat None 3).
Proof.
  exists [ONew 0 [DSize] (SrcValue 7) [2]; OMove 1 0]. intros chk. split; [|split]; [intros h; destruct chk; reflexivity..|].
  cbn [pseq ok_prog ok_op]. split; [split; [demo1|split; [demo1|split; [repeat split|demo1]]]|]. split; [|demo_end].
  split; [split; demo1|]. split; [|demo_end]. exact I.
Qed.
Print Assumptions moved_from_copy_refuted.

(** ** C18 *)
(** [es] pushes of the values [vs], whatever throws: the builder holds exactly the values whose push did not throw. *)
Theorem builder_pushes : forall V thr nt chk es (vs : list V) b bs k done, fits es ->
  blk bs b (map Some done ++ repeat None (Z.to_nat (zprod es) - length done)) -> Z.of_nat (length done) + Z.of_nat (length vs) <= zprod es ->
  exists kept k', push_all thr nt chk (Bld (Some b) es (length done)) vs (World bs k)
    = (ROk (Bld (Some b) es (length done + length kept)),
       World (upd_nat bs b (Some (map Some (done ++ kept) ++ repeat None (Z.to_nat (zprod es) - (length done + length kept))))) k') /\
    subseq kept vs /\ ((forall j, thr j = false) \/ nt = true -> kept = vs).
Proof. exact @push_all_spec. Qed.
Print Assumptions builder_pushes.

(** Destroying it, early or not, destroys exactly those and releases the storage. *)
Theorem builder_destroyed : forall V es (vs : list V) b bs k, fits es -> Z.of_nat (length vs) <= zprod es ->
  blk bs b (map Some vs ++ repeat None (Z.to_nat (zprod es) - length vs)) ->
  bld_destroy (Bld (Some b) es (length vs)) (World bs k) = (ROk tt, World (upd_nat bs b None) k).
Proof. exact @bld_destroy_spec. Qed.
Print Assumptions builder_destroyed.

(** A full builder hands over its block unchanged: the pushed values in column-major positions. *)
Theorem builder_released : forall V chk es b (w : @world V), fits es ->
  bld_release chk (Bld (Some b) es (Z.to_nat (zprod es))) w = (ROk (Some b, Bld None es 0), w).
Proof. exact @bld_release_spec. Qed.
Print Assumptions builder_released.

Theorem builder_checked : forall V thr nt nx es p n (v : V) (w : world), fits es ->
  (Z.of_nat n = zprod es -> bld_push thr nt true nx (Bld p es n) v w = (RAbort, w)) /\
  (Z.of_nat n <> zprod es -> bld_release true (Bld p es n) w = (RAbort, w)).
Proof. exact @bld_checked. Qed.
Print Assumptions builder_checked.

Example builder_ex : fits [2; 2] /\
  push_all (fun k => Nat.eqb k 1) false true (Bld (Some 0%nat) [2; 2] 0) [4; 5; 6; 7] (World [Some (repeat None 4)] 0)
   = (ROk (Bld (Some 0%nat) [2; 2] 3), World [Some [Some 4; Some 6; Some 7; None]] 4).
Proof. repeat split; try discriminate; try reflexivity; repeat constructor; lia. Qed.

(** [push_back(T&&)] is [noexcept]: a throwing move constructor terminates the program. *)
Theorem rvalue_push_refuted : exists thr (w w' : @world Z) v, bld_push thr false true true (Bld (Some 0%nat) [2] 0) v w = (RTerm, w') /\
  cells w 0 = Some [None; None].
Proof. exists (fun k => Nat.eqb k 0), (World [Some [None; None]] 0). eexists. exists 5. split; reflexivity. Qed.
Print Assumptions rvalue_push_refuted.
