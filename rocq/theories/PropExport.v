(** * PropExport: C81 — to_vector, to_matrix, write and head with their temporary columns, also when memory runs out. *)

From Coq Require Import ZArith Bool Ascii List Lia.
From Verif Require Import Base Coerce Frame FrameSpec FrameProofs FrameWrite ColHeap ColHeapSpec ColHeapProofs2 ColHeapThms ColHeapConsist PropColHeap
  Export ExportSpec ExportProofs ExportThms.
Import ListNotations.
Open Scope list_scope.
Open Scope nat_scope.

(** In every state of every program, whatever fails: every command that has a meaning on the values of the variables returns or throws (it follows
    no pointer to released storage); it returns what the functions on values give, with their exceptions, and changes the variables as they do, or
    one of its operations fails: then it leaves and returns what [xfail] says. *)
Theorem C81_command : forall rs ex thr left_in w, xreach rs ex thr left_in w ->
  exists a, agrees a w /\
  forall x, xdefined rs left_in x a ->
  exists r w1 a1, xexec rs ex thr left_in x w = (r, w1) /\ agrees a1 w1 /\ ((exists v, r = Ok v) \/ exists e, r = Throw e) /\
    (axexec rs left_in x a = (a1, r) \/ xfail rs ex left_in x a r a1 /\ fails_between thr w w1).
Proof.
  intros rs ex thr li w H. destruct (xreach_inv _ _ _ _ _ H) as (a & HI). exists a. split; [exact (proj1 (inv_reads _ _ HI))|].
  intros x HD. destruct (xstep_inv rs ex thr li x a w HI HD) as (r & w1 & a1 & E & Hr & I1 & HX).
  exists r, w1, a1. split; [exact E|]. split; [exact (proj1 (inv_reads _ _ I1))|]. split; [exact Hr|exact HX].
Qed.
Print Assumptions C81_command.

(** No temporary column is left, and none is shared: the storage in use is exactly what the variables refer to, each block once. *)
Theorem C81_owned : forall rs ex thr left_in w, xreach rs ex thr left_in w ->
  NoDup (flat_map blocks_of (hvars w)) /\
  forall b, In b (flat_map blocks_of (hvars w)) <-> exists m, nth_error (hmem w) b = Some (Some m).
Proof.
  intros rs ex thr li w H. destruct (xreach_inv _ _ _ _ _ H) as (a & HI). exact (proj2 (inv_reads _ _ HI)).
Qed.
Print Assumptions C81_owned.

(** to_vector of an lvalue, to_matrix and write change nothing: all variables refer to the same storage, with the same contents, whether the call
    returns or throws; so pointers and views into columns stay valid. *)
Theorem C81_reads_only : forall rs ex thr left_in w a x r w1, xreach rs ex thr left_in w -> agrees a w -> xdefined rs left_in x a ->
  match x with XVec _ _ | XMat _ _ | XWrite _ _ _ _ => True | _ => False end ->
  xexec rs ex thr left_in x w = (r, w1) ->
  hvars w1 = hvars w /\ agrees a w1 /\ forall b m, nth_error (hmem w) b = Some (Some m) <-> nth_error (hmem w1) b = Some (Some m).
Proof.
  intros rs ex thr li w a x r w1 H HA HD Hx E. destruct (xreach_inv _ _ _ _ _ H) as (a' & HI).
  assert (a = a') by (eapply agrees_inj; [exact HA|exact (proj1 (inv_reads _ _ HI))]). subst a'.
  destruct (xread_same rs ex thr li x a w r w1 HI HD E Hx) as [H1 H2]. split; [exact H1|]. split; [|exact H2].
  destruct (xstep_inv rs ex thr li x a w HI HD) as (r' & w' & a1 & E1 & _ & I1 & HX). rewrite E in E1. inversion E1; subst r' w'.
  assert (a1 = a). { destruct HX as [HX|[HX _]].
    - destruct x; try contradiction; simpl in HX.
      + destruct (acol a x); inversion HX; auto.
      + destruct (adf a f); inversion HX; auto.
      + destruct (adf a f) as [d|]; [|inversion HX; auto]. destruct (write rs header ls cs d) as [z []]; inversion HX; auto.
    - destruct x; try contradiction; simpl in HX; tauto. }
  subst a1. exact (proj1 (inv_reads _ _ I1)).
Qed.
Print Assumptions C81_reads_only.

(** When to_matrix<T>(d) and d.write(...) have a meaning: every column has row_count() rows, and the coercions of its cells return or throw (columns
    without data make them throw). *)
Definition convertible (rs : rules) (t : ty) (c : column) : Prop :=
  match c with
  | None => True
  | Some m => mty m = t \/ match rs t (mty m) with
                           | None => True
                           | Some f => forall x, In x (mcells m) -> (exists y, f x = Ok y) \/ exists e, f x = Throw e
                           end
  end.
Lemma mapO_good {A B} (f : A -> outcome B) l : (forall x, In x l -> (exists y, f x = Ok y) \/ exists e, f x = Throw e) ->
  (exists r, mapO f l = Ok r) \/ exists e, mapO f l = Throw e.
Proof.
  induction l as [|x l IH]; simpl; intros H; eauto. destruct (H x) as [[y ->]|[e ->]]; auto; cbn [bindO]; eauto.
  destruct IH as [[r ->]|[e ->]]; auto; cbn [bindO]; eauto.
Qed.
Lemma data_len rs t nc l : matrix_data rs t nc = Ok l -> Z.of_nat (length l) = col_size (ncolumn nc).
Proof.
  unfold matrix_data. destruct (ncolumn nc) as [m|]; simpl; [|discriminate]. destruct (ty_eqb (mty m) t) eqn:E.
  - intros H; inversion H; auto.
  - unfold model_coerce. destruct (rs t (mty m)) as [f|]; simpl; [|discriminate]. destruct (mapO f (mcells m)) eqn:Em; simpl; try discriminate.
    destruct (ty_eqb t t); try discriminate. intros H; inversion H; subst. apply mapO_len in Em. lia.
Qed.
Lemma data_lens rs t es : forall data, mapO (matrix_data rs t) es = Ok data ->
  Forall2 (fun nc l => Z.of_nat (length l) = col_size (ncolumn nc)) es data.
Proof.
  induction es as [|nc es IH]; simpl; intros data H; [inversion H; constructor|].
  destruct (matrix_data rs t nc) eqn:E; try discriminate. cbn [bindO] in H. destruct (mapO (matrix_data rs t) es); try discriminate.
  inversion H; subst. constructor; auto. eapply data_len; eauto.
Qed.
Lemma reads_part l n : n <= length l -> reads l (seq 0 n) = Ok (firstn n l).
Proof.
  intros H. pose proof (reads_all (firstn n l)) as R. rewrite firstn_length_le in R by lia. rewrite <- R.
  assert (forall is, (forall i, In i is -> i < n) -> reads l is = reads (firstn n l) is) as K.
  { unfold reads. induction is as [|i is IH]; intros Hi; simpl; auto.
    replace (get l (Z.of_nat i)) with (get (firstn n l) (Z.of_nat i)).
    - destruct (get (firstn n l) (Z.of_nat i)); cbn [bindO]; auto. rewrite IH; auto. intros; apply Hi; simpl; auto.
    - assert (i < n) by (apply Hi; simpl; auto). destruct (nth_error l i) as [c|] eqn:E.
      + assert (E' := E). apply get_nat in E'. rewrite E'. apply get_nat. rewrite <- (firstn_skipn n l) in E.
        rewrite nth_error_app1 in E; auto. rewrite firstn_length. lia.
      + apply nth_error_None in E. lia. }
  apply K. intros i Hi. apply in_seq in Hi. lia.
Qed.

Theorem C81_defined : forall rs left_in a f d t, adf a f = Some d -> rect d -> Forall (fun nc => convertible rs t (ncolumn nc)) (elems d) ->
  xdefined rs left_in (XMat t f) a.
Proof.
  intros rs li a f d t Hd R F. unfold xdefined. simpl. rewrite Hd. simpl. unfold to_matrix.
  destruct (mapO_good (matrix_data rs t) (elems d)) as [[data E]|[e E]].
  { intros nc Hin. rewrite Forall_forall in F. specialize (F nc Hin). unfold matrix_data. destruct (ncolumn nc) as [m|]; simpl in *; eauto.
    destruct (ty_eqb (mty m) t) eqn:Et; eauto. destruct F as [F|F]; [apply ty_eqb_eq in F; congruence|].
    unfold model_coerce. destruct (rs t (mty m)) as [g|]; simpl; eauto. destruct (mapO_good g (mcells m) F) as [[r ->]|[e ->]]; simpl; eauto.
    assert (Ht : ty_eqb t t = true) by (apply ty_eqb_eq; auto). rewrite Ht. eauto. }
  2:{ rewrite E. cbn [bindO]. eauto. }
  rewrite E. cbn [bindO]. left. apply data_lens in E.
  assert (K : exists cols, mapO (fun col => mapO (fun i => get col (Z.of_nat i)) (seq 0 (Z.to_nat (rows d)))) data = Ok cols).
  { assert (Hr : forall nc, In nc (elems d) -> col_size (ncolumn nc) = rows d) by (apply Forall_forall; exact R). clear - E Hr. revert Hr.
    induction E as [|nc l es data Hl E IH]; intros Hr; simpl; eauto.
    change (mapO (fun i => get l (Z.of_nat i)) (seq 0 (Z.to_nat (rows d)))) with (reads l (seq 0 (Z.to_nat (rows d)))).
    rewrite reads_part by (rewrite <- (Hr nc), <- Hl by (simpl; auto); lia). cbn [bindO].
    destruct IH as [cols ->]; [intros; apply Hr; simpl; auto|]. cbn [bindO]. eauto. }
  destruct K as [cols ->]. cbn [bindO]. eauto.
Qed.
Print Assumptions C81_defined.

(** *** examples *)
Definition keep_text : text -> text := fun s => s.
Definition no_text : text -> text := fun _ => [].
Definition prog : list xop :=
  map XCmd [KNew TInt [CInt 1; CInt 2]; KNew TStr [CStr ["7"%char]; CStr ["8"%char]]; KNew TIdx [CIdx 3; CIdx 4];
            FNull; FBindCol 3 ta 0; FBindCol 3 tb 1; FBindCol 3 tc 2].
Fixpoint xrun (rs : rules) (ex : exn) (thr : nat -> bool) (li : text -> text) (xs : list xop) (w : world) : option world :=
  match xs with
  | [] => Some w
  | x :: xs' =>
      match kvals (hmem w) (hvars w) with
      | Some a => match snd (axexec rs li x a) with
                  | Ok _ | Throw _ => xrun rs ex thr li xs' (snd (xexec rs ex thr li x w))
                  | _ => None
                  end
      | None => None
      end
  end.
Lemma xrun_reach rs ex thr li xs : forall w w', xreach rs ex thr li w -> xrun rs ex thr li xs w = Some w' -> xreach rs ex thr li w'.
Proof.
  induction xs as [|x xs IH]; simpl; intros w w' H E. { inversion E; subst; auto. }
  destruct (kvals (hmem w) (hvars w)) as [a|] eqn:Ea; [|discriminate]. destruct (xexec rs ex thr li x w) as [r w1] eqn:Ex.
  eapply IH; [|destruct (snd (axexec rs li x a)); try discriminate; exact E].
  eapply xreach_step; [exact H|apply kvals_agrees; exact Ea| |exact Ex].
  unfold xdefined. destruct (snd (axexec rs li x a)); try discriminate; eauto.
Qed.

(** A dataframe with columns of integers, text and indexes: as a matrix of text two temporary columns are made (blocks 3 and 4), and released. *)
Example C81_ex : exists w w1, xrun default_rules BadAlloc never no_text prog kinit = Some w /\ xreach default_rules BadAlloc never no_text w /\
  xexec default_rules BadAlloc never no_text (XMat TStr 3) w =
    (Ok (VMat (2%Z, 3%Z, map (fun c => CStr [c]) ["1"; "2"; "7"; "8"; "3"; "4"]%char)), w1) /\
  hmem w1 = hmem w ++ [None; None] /\ hvars w1 = hvars w.
Proof.
  eexists; eexists. split; [vm_compute; reflexivity|]. split; [apply (xrun_reach _ _ _ _ prog kinit); [apply xreach_init|vm_compute; reflexivity]|].
  split; [vm_compute; reflexivity|]. split; vm_compute; reflexivity.
Qed.
(** Each of the operations of to_matrix, write, head and to_vector fails in turn: the blocks in use are those in use before. *)
Definition live (w : world) : list nat :=
  flat_map (fun p => match snd p with Some _ => [fst p] | None => [] end) (combine (seq 0 (length (hmem w))) (hmem w)).
Definition after (k : nat) (x : xop) : option (bool * list nat) :=
  match xrun default_rules BadAlloc never no_text prog kinit with
  | Some w => let '(r, w1) := xexec default_rules BadAlloc (at_op (hclock w + k)) no_text x w in
              Some (match r with Throw BadAlloc | Ok (VText _ (Throw BadAlloc)) => true | _ => false end, live w1)
  | None => None
  end.
Example C81_fail_ex :
  map (fun k => after k (XMat TStr 3)) (seq 0 18) = repeat (Some (true, [0; 1; 2])) 18 /\
  after 18 (XMat TStr 3) = Some (false, [0; 1; 2]) /\
  map (fun k => after k (XWrite true ["010"%char] ["009"%char] 3)) (seq 0 28) = repeat (Some (true, [0; 1; 2])) 28 /\
  map (fun k => after k (XHead 1 3)) (seq 0 45) = repeat (Some (true, [0; 1; 2])) 45 /\
  after 45 (XHead 1 3) = Some (false, [0; 1; 2; 9; 10; 11]).
Proof. vm_compute. repeat split; reflexivity. Qed.
(** to_vector of an rvalue moves the text out; when the second move fails, the first string is gone. *)
Example C81_move_ex : exists w w1 w2,
  xrun default_rules BadAlloc never no_text (map XCmd [KNew TStr [CStr ["7"%char]; CStr ["8"%char]]]) kinit = Some w /\
  xexec default_rules BadAlloc never no_text (XVecMove TStr 0) w = (Ok (VVec [CStr ["7"%char]; CStr ["8"%char]]), w1) /\
  hmem w1 = [Some (mkModel TStr [CStr []; CStr []])] /\
  xexec default_rules BadAlloc (at_op (hclock w + 2)) no_text (XVecMove TStr 0) w = (Throw BadAlloc, w2) /\
  hmem w2 = [Some (mkModel TStr [CStr []; CStr ["8"%char]])].
Proof. eexists; eexists; eexists. split; [vm_compute; reflexivity|]. repeat split; vm_compute; reflexivity. Qed.
Example C81_defined_ex : exists w a d, xrun default_rules BadAlloc never no_text prog kinit = Some w /\ kvals (hmem w) (hvars w) = Some a /\
  adf a 3 = Some d /\ rect d /\ Forall (fun nc => convertible default_rules TStr (ncolumn nc)) (elems d).
Proof.
  eexists; eexists; eexists. split; [vm_compute; reflexivity|]. split; [vm_compute; reflexivity|]. split; [vm_compute; reflexivity|]. split.
  - apply Forall_forall. intros nc H. repeat (destruct H as [<-|H]; [reflexivity|]). destruct H.
  - apply Forall_forall. intros nc H.
    repeat (destruct H as [<-|H]; [simpl; first [left; reflexivity|right; intros x K; repeat (destruct K as [<-|K]; [vm_compute; eauto|]); destruct K]|]). destruct H.
Qed.
