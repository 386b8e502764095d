(** * PropAsVector: property C67 (flattening into an element type that a pointer converts to). *)
From Coq Require Import ZArith Bool List Lia.
From Verif Require Import Base Spec Desc Slice SliceSpec Expr ExprSpec Numeric NumericSpec PropView NumericProofs AsVector.
Import ListNotations.
Open Scope Z_scope.

(** Contiguous operand: an [array] or a [ref_array], as opposed to a strided or indexed view and to an expression. *)
Definition contiguous {V} (e : @expr V) : Prop := exists sid off es, e = ELeaf sid (SRef off es).

(** Every operand when no pointer converts to the element type, and every operand that is not contiguous otherwise: the
    elements in column-major order. *)
Theorem vector_elements : forall (V : Type) ptr null (conv : V -> V) chk fuel fu (m : @mem V) (e : @expr V) es,
  ptr = None \/ ~ contiguous e ->
  expr_ok fuel m e es -> (Z.to_nat (zprod es) < fu)%nat ->
  exists vs, as_vector_at ptr null conv chk fu m e = Ok ([zprod es], vs) /\ Z.of_nat (length vs) = zprod es /\
   (forall k, (k < length vs)%nat -> nth_error vs k = lift1 conv (value fuel m e k)).
Proof.
  intros V ptr null conv chk fuel fu m e es H K Hf.
  replace (as_vector_at ptr null conv chk fu m e) with (as_vector conv chk fu m e); [apply as_vector_spec; assumption|].
  unfold as_vector_at. destruct ptr as [f|]; [|reflexivity]. destruct H as [H|H]; [discriminate|].
  destruct e as [sid s| | | | |]; try reflexivity. destruct s; try reflexivity.
  exfalso. apply H. eexists _, _, _. reflexivity.
Qed.

(** A contiguous operand and an element type made from a pointer: whatever the operand holds, two elements, both the image
    of the pointer. *)
Theorem vector_of_pointers : forall (V : Type) (f : bool -> V) null (conv : V -> V) chk fu (m : @mem V) (e : @expr V),
  contiguous e -> as_vector_at (Some f) null conv chk fu m e = Ok ([2], [f null; f null]).
Proof. intros V f null conv chk fu m e (sid & off & es & ->). reflexivity. Qed.
Print Assumptions vector_elements.
Print Assumptions vector_of_pointers.

(** [as_vector] of the array (false, true, false) is (true, true); of its reverse view, the elements. *)
Definition ex_b : @mem bool := [[false; true; false]].
Example vector_ex :
  expr_ok 10 ex_b (ELeaf 0 (SRef 0 [3])) [3] /\
  as_vector_at None false (fun v => v) true 10 ex_b (ELeaf 0 (SRef 0 [3])) = Ok ([3], [false; true; false]) /\
  as_vector_at (Some negb) false (fun v => v) true 10 ex_b (ELeaf 0 (SRef 0 [3])) = Ok ([2], [true; true]) /\
  ~ contiguous (EUn negb (ELeaf 0 (SRef 0 [3]))) /\
  as_vector_at (Some negb) false (fun v => v) true 10 ex_b (EUn negb (ELeaf 0 (SRef 0 [3]))) = Ok ([3], [true; false; true]).
Proof.
  split; [apply (ok_leaf _ _ _ _ _ [0; 1; 2]); [repeat split; try discriminate; repeat constructor; try lia|exists [false; true; false]; split; [reflexivity|]; repeat constructor; cbn; lia]|].
  split; [reflexivity|]. split; [reflexivity|]. split; [|reflexivity].
  intros (sid & off & es & H). discriminate.
Qed.

(** The natural claim fails: an array of three [bool]s whose flattening has two. *)
Theorem vector_elements_refuted : exists (m : @mem bool) e es ds vs,
  expr_ok 10 m e es /\ as_vector_at (Some negb) false (fun v => v) true 10 m e = Ok (ds, vs) /\
  ds <> [zprod es] /\ nth_error vs 0 <> value 10 m e 0.
Proof.
  exists ex_b, (ELeaf 0 (SRef 0 [3])), [3], [2], [true; true]. split; [apply vector_ex|].
  split; [reflexivity|]. split; [discriminate|]. vm_compute. discriminate.
Qed.
Print Assumptions vector_elements_refuted.
