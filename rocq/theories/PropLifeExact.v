(** * PropLifeExact: C15 and C16, the outcome of constructors and assignments as a function of the first operation that throws. *)

From Coq Require Import ZArith List Bool Lia.
From Verif Require Import Base Spec Desc Lemmas Life LifeSpec LifeProofs LifeThms LifeExact.
Import ListNotations.
Open Scope Z_scope.

(** Operations that may throw: an allocation, then per element the evaluation of the source (if it is not a value or an array) and
    the construction.  The evaluations come first, at even distance from [k0]; they throw unless [ns], the constructions unless [nt]. *)
Definition pair_throws (thr : nat -> bool) (nt ns : bool) (k0 j : nat) : bool :=
  thr j && negb (if Nat.even (j - k0) then ns else nt).

Lemma pair_even thr nt ns k0 i : pair_throws thr nt ns k0 (k0 + (1 + 1) * i)%nat = negb ns && thr (k0 + (1 + 1) * i)%nat.
Proof.
  unfold pair_throws. replace (k0 + (1 + 1) * i - k0)%nat with (2 * i)%nat by lia. rewrite Nat.even_mul. cbn. apply andb_comm.
Qed.
Lemma pair_odd thr nt ns k0 i : pair_throws thr nt ns k0 (k0 + (1 + 1) * i + 1)%nat = negb nt && thr (k0 + (1 + 1) * i + 1)%nat.
Proof.
  unfold pair_throws. replace (k0 + (1 + 1) * i + 1 - k0)%nat with (S (2 * i))%nat by lia. rewrite Nat.even_succ, Nat.odd_mul. cbn. apply andb_comm.
Qed.

(** What [first_throw] means. *)
Theorem first_throw_means : forall P k n,
  (first_throw P k n = None <-> forall j, (j < n)%nat -> P (k + j)%nat = false) /\
  (forall j, first_throw P k n = Some j <-> (j < n)%nat /\ P (k + j)%nat = true /\ forall i, (i < j)%nat -> P (k + i)%nat = false).
Proof. intros P k n. split; [apply first_throw_none|]. intros j. apply first_throw_some. Qed.
Print Assumptions first_throw_means.

(** [a = b].  Equal sizes: the elements before the one whose assignment threw are replaced, the others not.  Other sizes: when the allocation
    throws nothing changes; when a construction throws, the new block stays allocated, empty and unreachable. *)
Theorem copy_assignment_exact : forall V thr nt a (olds vs : list V) s bs k, holds bs a olds -> holds bs s vs ->
  (forall b, adata a = Some b -> adata s <> Some b) ->
  assign_copy thr nt a s (World bs k) =
  if zprod (aexts a) =? zprod (aexts s) then
    match first_throw thr k (length vs) with
    | None => (ROk (Arr (adata a) (aexts s)), World (match adata a with Some b => upd_nat bs b (Some (map Some vs)) | None => bs end) (k + length vs))
    | Some j => (RThrow, World (match adata a with Some b => upd_nat bs b (Some (map Some (firstn j vs ++ skipn j olds))) | None => bs end) (k + S j))
    end
  else if thr k then (RThrow, World bs (S k)) else
    match first_throw (fun j => negb nt && thr j) (S k) (length vs) with
    | None => (ROk (Arr (Some (length bs)) (aexts s)),
               World (match adata a with Some b => upd_nat bs b None | None => bs end ++ [Some (map Some vs)]) (S k + length vs))
    | Some j => (if nt then RTerm else RThrow, World (bs ++ [Some (repeat None (length vs))]) (S k + S j))
    end.
Proof.
  intros V thr nt a olds vs s bs k Ha Hs Hne. unfold assign_copy. destruct (zprod (aexts a) =? zprod (aexts s)) eqn:Ez.
  - apply Z.eqb_eq in Ez.
    rewrite (assign_same_x thr nt a olds (read_at (adata s)) vs (aexts s) 0 (fun _ => false) thr bs k); auto; try apply Hs; try discriminate.
    + change (0 + 1)%nat with 1%nat. rewrite !Nat.mul_1_l. destruct (first_throw thr k (length vs)) as [j|]; [|reflexivity]. rewrite Nat.div_1_r. reflexivity.
    + intros b Eb. apply gen_x_read; auto.
  - apply Z.eqb_neq in Ez.
    rewrite (assign_other_x thr nt a (read_at (adata s)) vs (aexts s) 0 (fun _ => false) (fun j => negb nt && thr j) bs k); auto; try apply Hs; try apply Ha; try discriminate.
    + change (0 + 1)%nat with 1%nat. rewrite !Nat.mul_1_l. reflexivity.
    + destruct Ha as (_ & Ha1 & Ha2). destruct (adata a); auto. exists olds. auto.
    + apply gen_x_read; [apply holds_app; auto|eapply holds_lt; eauto].
Qed.
Print Assumptions copy_assignment_exact.

(** [a = expression]; two operations per element. *)
Theorem converting_assignment_exact : forall V thr nt ns a (olds vs : list V) es bs k, holds bs a olds -> fits es -> Z.of_nat (length vs) = zprod es ->
  assign_conv thr nt ns a vs es (World bs k) =
  if zprod (aexts a) =? zprod es then
    match first_throw (pair_throws thr false ns k) k (2 * length vs) with
    | None => (ROk (Arr (adata a) es), World (match adata a with Some b => upd_nat bs b (Some (map Some vs)) | None => bs end) (k + 2 * length vs))
    | Some j => (RThrow, World (match adata a with Some b => upd_nat bs b (Some (map Some (firstn (j / 2) vs ++ skipn (j / 2) olds))) | None => bs end) (k + S j))
    end
  else if thr k then (RThrow, World bs (S k)) else
    match first_throw (pair_throws thr nt ns (S k)) (S k) (2 * length vs) with
    | None => (ROk (Arr (Some (length bs)) es),
               World (match adata a with Some b => upd_nat bs b None | None => bs end ++ [Some (map Some vs)]) (S k + 2 * length vs))
    | Some j => (if nt then RTerm else RThrow, World (bs ++ [Some (repeat None (length vs))]) (S k + S j))
    end.
Proof.
  intros V thr nt ns a olds vs es bs k Ha He Hl. unfold assign_conv. destruct (zprod (aexts a) =? zprod es) eqn:Ez.
  - apply Z.eqb_eq in Ez.
    rewrite (assign_same_x thr nt a olds _ vs es 1 (fun k => negb ns && thr k) (pair_throws thr false ns k) bs k); auto.
    + intros b Eb. apply gen_x_seq.
    + intros i _. apply pair_even.
    + intros i. rewrite pair_odd. reflexivity.
  - apply Z.eqb_neq in Ez.
    rewrite (assign_other_x thr nt a _ vs es 1 (fun k => negb ns && thr k) (pair_throws thr nt ns (S k)) bs k); auto; try apply Ha.
    + destruct Ha as (_ & Ha1 & Ha2). destruct (adata a); auto. exists olds. auto.
    + apply gen_x_seq.
    + intros i _. apply pair_even.
    + intros i. apply pair_odd.
Qed.
Print Assumptions converting_assignment_exact.

(** Constructors.  On an exception the new block is released; with a nothrow element type and a throwing source the exception terminates the program. *)
Theorem constructor_exact : forall V thr nt ns bs k (ts : list dimty) es, fits es ->
  (forall (v : V), dims_fit ts es ->
     ctor_dims thr nt ns ts (SrcValue v) es (World bs k) =
     if thr k then (RThrow, World bs (S k)) else
     match first_throw (fun j => negb nt && thr j) (S k) (Z.to_nat (zprod es)) with
     | None => (ROk (Arr (Some (length bs)) es), World (bs ++ [Some (map Some (repeat v (Z.to_nat (zprod es))))]) (S k + Z.to_nat (zprod es)))
     | Some j => (RThrow, World (bs ++ [None]) (S k + S j))
     end) /\
  (forall (vs : list V), dims_fit ts es -> zprod es <= Z.of_nat (length vs) ->
     ctor_dims thr nt ns ts (SrcSeq vs) es (World bs k) =
     if thr k then (RThrow, World bs (S k)) else
     match first_throw (pair_throws thr nt ns (S k)) (S k) (2 * Z.to_nat (zprod es)) with
     | None => (ROk (Arr (Some (length bs)) es), World (bs ++ [Some (map Some (firstn (Z.to_nat (zprod es)) vs))]) (S k + 2 * Z.to_nat (zprod es)))
     | Some j => if nt then (RTerm, World (bs ++ [Some (repeat None (Z.to_nat (zprod es)))]) (S k + S j)) else (RThrow, World (bs ++ [None]) (S k + S j))
     end) /\
  (forall (vs : list V), Z.of_nat (length vs) = zprod es ->
     ctor_conv thr nt ns vs es (World bs k) =
     if thr k then (RThrow, World bs (S k)) else
     match first_throw (pair_throws thr nt ns (S k)) (S k) (2 * length vs) with
     | None => (ROk (Arr (Some (length bs)) es), World (bs ++ [Some (map Some vs)]) (S k + 2 * length vs))
     | Some j => if nt then (RTerm, World (bs ++ [Some (repeat None (length vs))]) (S k + S j)) else (RThrow, World (bs ++ [None]) (S k + S j))
     end) /\
  (forall (vs : list V) p, holds bs (Arr p es) vs ->
     ctor_copy thr nt (Arr p es) (World bs k) =
     if thr k then (RThrow, World bs (S k)) else
     match first_throw (fun j => negb nt && thr j) (S k) (length vs) with
     | None => (ROk (Arr (Some (length bs)) es), World (bs ++ [Some (map Some vs)]) (S k + length vs))
     | Some j => (RThrow, World (bs ++ [None]) (S k + S j))
     end).
Proof.
  intros V thr nt ns bs k ts es Hf. pose proof Hf as (Hne & Hnn & HW). pose proof (zprod_nonneg _ Hnn) as H0.
  assert (Hd := dims_alloc_fits ts es Hf).
  assert (Hnt : forall n, nt = true -> first_throw (fun j => negb nt && thr j) (S k) n = None).
  { intros n ->. apply first_throw_none. auto. }
  split; [|split; [|split]].
  - intros v Ht. unfold ctor_dims. rewrite (Hd Ht), (size_of_fits es Hf). unfold construct.
    rewrite (ctor_x thr nt _ (repeat v (Z.to_nat (zprod es))) 0 (fun _ => false) (fun j => negb nt && thr j) bs k (Z.to_nat (zprod es)) es);
      auto; try discriminate; [|apply gen_x_value|rewrite repeat_length; auto].
    destruct (thr k); auto. unfold ctor_out. rewrite repeat_length. change (0 + 1)%nat with 1%nat. rewrite !Nat.mul_1_l.
    destruct nt eqn:En; [rewrite Hnt by auto; reflexivity|]. reflexivity.
  - intros vs Ht Hl. unfold ctor_dims. rewrite (Hd Ht), (size_of_fits es Hf). unfold construct.
    rewrite (ctor_x thr nt _ (firstn (Z.to_nat (zprod es)) vs) 1 (fun k => negb ns && thr k) (pair_throws thr nt ns (S k)) bs k (Z.to_nat (zprod es)) es).
    + destruct (thr k); auto. unfold ctor_out. rewrite firstn_length_le by lia. reflexivity.
    + apply gen_x_firstn.
    + rewrite firstn_length_le by lia. auto.
    + intros i _. apply pair_even.
    + intros i. apply pair_odd.
  - intros vs Hl. unfold ctor_conv, construct. rewrite (size_of_fits es Hf). replace (Z.to_nat (zprod es)) with (length vs) by lia.
    rewrite (ctor_x thr nt _ vs 1 (fun k => negb ns && thr k) (pair_throws thr nt ns (S k)) bs k (length vs) es); auto.
    + apply gen_x_seq.
    + intros i _. apply pair_even.
    + intros i. apply pair_odd.
  - intros vs p Hh. pose proof Hh as (_ & Hl & _). cbn [aexts] in Hl. unfold ctor_copy. cbn [aexts]. rewrite (size_of_fits es Hf). replace (Z.to_nat (zprod es)) with (length vs) by lia.
    rewrite (ctor_x thr nt _ vs 0 (fun _ => false) (fun j => negb nt && thr j) bs k (length vs) es); auto; try discriminate.
    + destruct (thr k); auto. unfold ctor_out. change (0 + 1)%nat with 1%nat. rewrite !Nat.mul_1_l.
      destruct nt eqn:En; [rewrite Hnt by auto; reflexivity|]. reflexivity.
    + apply gen_x_read; [apply holds_app; auto|eapply holds_lt; eauto].
Qed.
Print Assumptions constructor_exact.

Example exact_ex :
  let w := World [Some (map Some [1; 2]); Some (map Some [7; 8])] 0 in
  let a := Arr (Some 0%nat) [2] in let s := Arr (Some 1%nat) [2; 1] in
  holds (blocks w) a [1; 2] /\ holds (blocks w) s [7; 8] /\ first_throw (fun k => Nat.eqb k 1) 0 2 = Some 1%nat /\
  assign_copy (fun k => Nat.eqb k 1) false a s w = (RThrow, World [Some (map Some [7; 2]); Some (map Some [7; 8])] 2) /\
  first_throw (pair_throws (fun k => Nat.eqb k 4) false true 1) 1 4 = Some 3%nat /\
  first_throw (pair_throws (fun k => Nat.eqb k 3) false true 1) 1 4 = None /\
  ctor_conv (fun k => Nat.eqb k 4) false true [5; 6] [2] (World [] 0) = (RThrow, World [None] 5) /\
  ctor_conv (fun k => Nat.eqb k 3) true false [5; 6] [2] (World [] 0) = (RTerm, World [Some [None; None]] 4).
Proof. cbn. repeat split; try discriminate; try reflexivity; repeat constructor; lia. Qed.

(** C17: the two uses of a moved-from, non-empty array that the programs of [every_program_balanced_partial] avoid never succeed: copying
    from it, or assigning it a value of its former size, is undefined behaviour unless an exception comes first.
    The other array is any that holds its elements. *)
Theorem moved_from_undefined : forall V thr nt es bs k, fits es -> zprod es <> 0 ->
  fst (@ctor_copy V thr nt (Arr None es) (World bs k)) = (if thr k then RThrow else RUB) /\
  (forall a (olds : list V), holds bs a olds -> zprod (aexts a) = zprod es ->
     fst (assign_copy thr nt a (Arr None es) (World bs k)) = RUB) /\
  (forall a (olds : list V), holds bs a olds -> zprod (aexts a) <> zprod es ->
     fst (assign_copy thr nt a (Arr None es) (World bs k)) = (if thr k then RThrow else RUB)) /\
  (forall s (vs : list V), holds bs s vs -> zprod (aexts s) = zprod es ->
     fst (assign_copy thr nt (Arr None es) s (World bs k)) = (if thr k then RThrow else RUB)) /\
  (forall ns (vs : list V) es', fits es' -> zprod es' = zprod es -> Z.of_nat (length vs) = zprod es' ->
     fst (assign_conv thr nt ns (Arr None es) vs es' (World bs k))
      = if pair_throws thr nt ns k k || thr (S k) then RThrow else RUB).
Proof.
  intros V thr nt es bs k Hf Hz. pose proof Hf as (_ & Hnn & _). apply zprod_nonneg in Hnn.
  assert (Hn : exists n, Z.to_nat (zprod es) = S n) by (exists (pred (Z.to_nat (zprod es))); lia). destruct Hn as (n & Hn).
  split; [|split; [|split; [|split]]].
  - unfold ctor_copy. cbn [aexts adata]. rewrite (size_of_fits _ Hf), Hn. unfold bind at 1. rewrite allocate_x. destruct (thr k); reflexivity.
  - intros a olds (Hfa & Hla & Hda) E. unfold assign_copy, assign_from. cbn [aexts adata]. rewrite !size_of_fits, E, Nat.eqb_refl, Hn by auto. reflexivity.
  - intros a olds (Hfa & Hla & Hda) E. unfold assign_copy, assign_from. cbn [aexts adata]. rewrite !size_of_fits by auto.
    replace (Z.to_nat (zprod (aexts a)) =? Z.to_nat (zprod es))%nat with false.
    2:{ symmetry. apply Nat.eqb_neq. destruct Hfa as (_ & Hn1 & _). apply zprod_nonneg in Hn1. lia. }
    rewrite Hn. unfold bind at 1. rewrite allocate_x. destruct (thr k); reflexivity.
  - intros s vs (Hfs & Hls & Hds) E. unfold assign_copy, assign_from. cbn [aexts adata]. rewrite !size_of_fits, E, Nat.eqb_refl, Hn by auto.
    destruct (adata s) as [b|]; [|subst; cbn in Hls; lia]. cbn [copy_into]. destruct vs as [|v vs]; [cbn in Hls; lia|].
    unfold bind, read_at. rewrite (blk_cells _ _ _ _ Hds). cbn. destruct (thr k); reflexivity.
  - intros ns vs es' Hf' E Hl. unfold assign_conv, assign_from. cbn [aexts adata]. rewrite !size_of_fits, E, Nat.eqb_refl, Hn by auto.
    destruct vs as [|v vs]; [cbn in Hl; lia|]. cbn [copy_into gen_of nth_error]. unfold bind, tick, pair_throws, assign_at. cbn [clock blocks].
    rewrite Nat.sub_diag. cbn [Nat.even]. unfold ret, bind, tick. rewrite (andb_comm (thr k)). destruct (negb ns && thr k); [reflexivity|].
    cbn. destruct (thr (S k)); reflexivity.
Qed.
Print Assumptions moved_from_undefined.

Example moved_from_undefined_ex : fits [2] /\ zprod [2] <> 0 /\
  fst (@ctor_copy Z (fun _ => false) true (Arr None [2]) (World [] 0)) = RUB /\
  holds [Some (map Some [1; 2])] (Arr (Some 0%nat) [2]) [1; 2] /\
  fst (assign_copy (fun _ => false) true (Arr (Some 0%nat) [2]) (Arr None [2]) (World [Some (map Some [1; 2])] 0)) = RUB.
Proof. cbn. repeat split; try discriminate; try reflexivity; repeat constructor; lia. Qed.

(** C15, C16, C17: operations that construct no element, allocate nothing and so cannot throw.  The memory [w] (every block and the count of
    operations that may throw) is the same before and after.
    A default-constructed array has [N] extents, all zero, and no elements; [x = x] changes nothing; [auto x = std::move(y)] hands the
    storage of [y] to [x] and leaves [y] without storage; [x = std::move(y)] exchanges the two; [x = std::move(x)] aborts in a checked build. *)
Theorem no_element_operations : forall V thr nt ns chk (w : @world V) (st : store) x y N,
  (free_var st x = true -> exists a, step thr nt ns chk (ODefault x N) (w, st) = (ROk tt, (w, setv st x (Some (OArr a)))) /\
     aexts a = repeat 0 N /\ ((1 <= N)%nat -> holds (blocks w) a []) /\ clear a w = (ROk tt, w)) /\
  (forall a, var st x = Some (OArr a) -> step thr nt ns chk (OAssign x x) (w, st) = (ROk tt, (w, st))) /\
  (forall a, free_var st x = true -> var st y = Some (OArr a) -> exists m,
     step thr nt ns chk (OMove x y) (w, st) = (ROk tt, (w, setv (setv st y (Some (OArr m))) x (Some (OArr a)))) /\
     adata m = None /\ clear m w = (ROk tt, w)) /\
  (forall a b, x <> y -> var st x = Some (OArr a) -> var st y = Some (OArr b) ->
     step thr nt ns chk (OAssignMove x y) (w, st) = (ROk tt, (w, setv (setv st y (Some (OArr a))) x (Some (OArr b))))) /\
  (forall a, var st x = Some (OArr a) ->
     step thr nt ns chk (OAssignMove x x) (w, st) = ((if chk then RAbort else ROk tt), (w, st))).
Proof.
  intros V thr nt ns chk w st x y N. repeat apply conj.
  - intros H. eexists. cbn [step]. rewrite H. split; [reflexivity|]. split; [reflexivity|]. split; [|reflexivity].
    intros HN. split; [|split; [|reflexivity]]; cbn [aexts ctor_default].
    + destruct N; [lia|]. split; [discriminate|]. split.
      * apply Forall_forall. intros e He. apply repeat_spec in He. lia.
      * cbn [repeat]. cbn. reflexivity.
    + destruct N; [lia|]. reflexivity.
  - intros a H. cbn [step]. rewrite H, Nat.eqb_refl. reflexivity.
  - intros a H Hy. eexists. cbn [step]. rewrite H, Hy. split; [reflexivity|]. split; reflexivity.
  - intros a b Hne Hx Hy. cbn [step]. rewrite Hx, Hy. apply Nat.eqb_neq in Hne. rewrite Hne. reflexivity.
  - intros a H. cbn [step]. rewrite H, Nat.eqb_refl. reflexivity.
Qed.
Print Assumptions no_element_operations.

Example no_element_operations_ex :
  let w := World [Some (map Some [1; 2])] 1 in let a := Arr (Some 0%nat) [2] in let st := [Some (OArr a); None; Some (OArr (Arr None [0]))] in
  var st 0 = Some (OArr a) /\ free_var st 1 = true /\ var st 2 = Some (OArr (Arr None [0])) /\
  step (fun _ => true) false false true (OMove 1 0) (w, st)
    = (ROk tt, (w, [Some (OArr (Arr None [2])); Some (OArr a); Some (OArr (Arr None [0]))])) /\
  step (fun _ => true) false false true (OAssign 0 0) (w, st) = (ROk tt, (w, st)).
Proof. cbn. repeat split. Qed.
