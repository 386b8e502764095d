(** * PropReadHeap: C86 — reading dataframes from text when memory runs out. *)

From Coq Require Import ZArith Bool Ascii List Lia.
From Verif Require Import Base Coerce Frame FrameSpec FrameProofs FrameText PropFrameText ColHeap ColHeapSpec ColHeapProofs2 ColHeapThms ColHeapConsist PropColHeap
  Export ExportSpec ExportProofs ExportThms PropExport ReadHeap ReadHeapSpec ReadHeapProofs.
Import ListNotations.
Open Scope list_scope.
Open Scope nat_scope.

(** In every state of every program that also reads dataframes from text, whatever fails: every command that has a meaning on the values of the
    variables returns or throws (no pointer to released storage is followed); it gives what the functions on values give, or one of its operations
    fails, and then it leaves what [yfail] says: reading throws that failure's exception, and no value has changed. *)
Theorem C86_command : forall rs ex thr left_in w, yreach rs ex thr left_in w ->
  exists a, agrees a w /\
  forall y, ydefined rs left_in y a ->
  exists r w1 a1, yexec rs ex thr left_in y w = (r, w1) /\ agrees a1 w1 /\ ((exists v, r = Ok v) \/ exists e, r = Throw e) /\
    (ayexec rs left_in y a = (a1, r) \/ yfail rs ex left_in y a r a1 /\ fails_between thr w w1).
Proof.
  intros rs ex thr li w H. destruct (yreach_inv _ _ _ _ _ H) as (a & HI). exists a. split; [exact (proj1 (inv_reads _ _ HI))|].
  intros y HD. destruct (ystep_inv rs ex thr li y a w HI HD) as (r & w1 & a1 & E & Hr & I1 & HX).
  exists r, w1, a1. split; [exact E|]. split; [exact (proj1 (inv_reads _ _ I1))|]. split; [exact Hr|exact HX].
Qed.
Print Assumptions C86_command.

(** No column of a dataframe that could not be read to the end is left: the storage in use is what the variables refer to, each block once. *)
Theorem C86_owned : forall rs ex thr left_in w, yreach rs ex thr left_in w ->
  NoDup (flat_map blocks_of (hvars w)) /\
  forall b, In b (flat_map blocks_of (hvars w)) <-> exists m, nth_error (hmem w) b = Some (Some m).
Proof.
  intros rs ex thr li w H. destruct (yreach_inv _ _ _ _ _ H) as (a & HI). exact (proj2 (inv_reads _ _ HI)).
Qed.
Print Assumptions C86_owned.

(** Every text, with any delimiters, can be given to [read], and to [>>] with any dataframe on the right. *)
Theorem C86_any_text : forall rs left_in a splits,
  (forall header lsep csep t, ydefined rs left_in (YRead splits header lsep csep t) a) /\
  forall t f d, adf a f = Some d -> ydefined rs left_in (YExtract splits t f) a.
Proof.
  intros rs li a splits. split.
  - intros h lsep csep t. unfold ydefined. simpl. destruct (C33_read_total h lsep csep t) as [(d & -> & _)| ->]; simpl; eauto.
  - intros t f d Hd. unfold ydefined. simpl. rewrite Hd. destruct (C33_read_total true is_nl is_tab t) as [(d' & -> & _)| ->]; simpl; eauto.
Qed.
Print Assumptions C86_any_text.

(** Reading never touches the variables and columns there are: they refer to the same storage, with the same contents, so views and pointers stay
    valid.  When the new dataframe is there, it is a further variable with storage of its own; when reading throws, all storage that had been
    obtained is released; the exception is that of the failed operation or std::logic_error. *)
Theorem C86_read : forall rs ex thr left_in w splits header lsep csep t r w1, yreach rs ex thr left_in w ->
  yexec rs ex thr left_in (YRead splits header lsep csep t) w = (r, w1) ->
  (r = Ok VUnit /\ (exists d, hvars w1 = hvars w ++ [HDf d]) /\
     forall b m, nth_error (hmem w) b = Some (Some m) -> nth_error (hmem w1) b = Some (Some m)) \/
  ((r = Throw ex \/ r = Throw LogicError) /\ hvars w1 = hvars w /\
     forall b m, nth_error (hmem w) b = Some (Some m) <-> nth_error (hmem w1) b = Some (Some m)).
Proof.
  intros rs ex thr li w splits h lsep csep t r w1 H E. destruct (yreach_inv _ _ _ _ _ H) as (a & HI).
  simpl in E. unfold bindM in E. destruct (hread ex thr splits h lsep csep t w) as [o w2] eqn:Er.
  destruct (hread_keeps ex thr splits h lsep csep t a w o w2 HI Er) as [K1 K2].
  destruct o as [d|e| | |]; try contradiction.
  - destruct K2 as [K2 _]. cbn in E. inversion E; subst. left. cbn [hvars hmem]. rewrite K1. eauto.
  - destruct K2 as [Ke K2]. inversion E; subst. right. split; [destruct Ke as [-> | ->]; auto|auto].
Qed.
Print Assumptions C86_read.

Lemma nodup_app_disjoint {A} (l1 l2 : list A) : NoDup (l1 ++ l2) -> forall x, In x l1 -> In x l2 -> False.
Proof.
  induction l1 as [|y l1 IH]; simpl; intros H x H1 H2; [auto|]. inversion H; subst. destruct H1 as [->|H1]; [|eapply IH; eauto].
  apply H4. apply in_or_app. now right.
Qed.
(** [is >> f]: when it throws, nothing has changed, so [f] still has its columns; when it returns, the columns of all other variables are as they
    were, and only the columns that were [f]'s have been released. *)
Theorem C86_extract : forall rs ex thr left_in w splits t f d r w1, yreach rs ex thr left_in w -> nth_error (hvars w) f = Some (HDf d) ->
  yexec rs ex thr left_in (YExtract splits t f) w = (r, w1) ->
  (r = Ok VUnit /\ length (hvars w1) = length (hvars w) /\ (forall i, i <> f -> nth_error (hvars w1) i = nth_error (hvars w) i) /\
     (forall b m, nth_error (hmem w) b = Some (Some m) ->
        if in_dec Nat.eq_dec b (blocks_of (HDf d)) then forall m', nth_error (hmem w1) b <> Some (Some m') else nth_error (hmem w1) b = Some (Some m))) \/
  ((r = Throw ex \/ r = Throw LogicError) /\ hvars w1 = hvars w /\
     forall b m, nth_error (hmem w) b = Some (Some m) <-> nth_error (hmem w1) b = Some (Some m)).
Proof.
  intros rs ex thr li w splits t f d r w1 H Nd E. destruct (yreach_inv _ _ _ _ _ H) as (a & HI).
  pose proof (extract_keeps rs ex thr li splits t f d a w r w1 HI Nd E) as K.
  destruct r as [u|e| | |]; try contradiction.
  2:{ destruct K as (Ke & K1 & K2). right. split; [destruct Ke as [-> | ->]; auto|auto]. }
  left. destruct K as (-> & (n & Hn) & X0 & X & R & Hb & [_ H1] & ND & [_ H2]). split; [reflexivity|].
  rewrite Hn. split; [apply ColHeapFrame.upd_length|]. split; [intros i Hi; apply ColHeapFrame.upd_other; auto|].
  intros b m Hm. apply H1 in Hm. cbn [blocks_of]. rewrite <- Hb. destruct (in_dec Nat.eq_dec b (map fst X0)) as [Hin|Hin].
  - intros m' Hm'. apply H2 in Hm'. rewrite map_app in ND. apply (nodup_app_disjoint _ _ ND b Hin). now apply (in_map fst) in Hm'.
  - apply H2. apply in_app_or in Hm. destruct Hm as [Hm|Hm]; [exfalso; apply Hin; now apply (in_map fst) in Hm|apply in_or_app; now right].
Qed.
Print Assumptions C86_extract.
(** A program whose operations do not fail computes what its commands give on values, one after the other. *)
Fixpoint ymeaningful (rs : rules) (left_in : text -> text) (ys : list yop) (a : avals) : Prop :=
  match ys with [] => True | y :: ys' => ydefined rs left_in y a /\ ymeaningful rs left_in ys' (fst (ayexec rs left_in y a)) end.
Fixpoint yvalues (rs : rules) (left_in : text -> text) (ys : list yop) (a : avals) : avals :=
  match ys with [] => a | y :: ys' => yvalues rs left_in ys' (fst (ayexec rs left_in y a)) end.
Fixpoint ysteps (rs : rules) (ex : exn) (thr : nat -> bool) (left_in : text -> text) (ys : list yop) (w : world) : world :=
  match ys with [] => w | y :: ys' => ysteps rs ex thr left_in ys' (snd (yexec rs ex thr left_in y w)) end.
Theorem C86_program : forall rs ex thr left_in ys, (forall k, thr k = false) -> ymeaningful rs left_in ys [] ->
  agrees (yvalues rs left_in ys []) (ysteps rs ex thr left_in ys kinit) /\ yreach rs ex thr left_in (ysteps rs ex thr left_in ys kinit).
Proof.
  intros rs ex thr li ys Hn M.
  assert (K : forall ys a w, yreach rs ex thr li w -> Inv a w -> ymeaningful rs li ys a ->
     agrees (yvalues rs li ys a) (ysteps rs ex thr li ys w) /\ yreach rs ex thr li (ysteps rs ex thr li ys w)).
  { clear ys M. induction ys as [|y ys IH]; simpl; intros a w Hr HI M. { split; [exact (proj1 (inv_reads _ _ HI))|exact Hr]. }
    destruct M as [HD M]. destruct (ystep_inv rs ex thr li y a w HI HD) as (r & w1 & a1 & E & _ & I1 & HX).
    assert (Hr1 : yreach rs ex thr li w1) by (eapply yreach_step; [exact Hr|exact (proj1 (inv_reads _ _ HI))|exact HD|exact E]).
    destruct HX as [HX|[_ (k & _ & Hk)]]; [|rewrite Hn in Hk; discriminate].
    rewrite E. cbn [snd]. rewrite HX in *. cbn [fst] in *. apply IH; auto. }
  apply K; [apply yreach_init|apply inv_init|exact M].
Qed.
Print Assumptions C86_program.

(** *** examples *)
Definition yprog : list yop :=
  map YOp (map XCmd [KNew TInt [CInt 1; CInt 2]; FNull; FBindCol 1 ta 0]).
Fixpoint yrun (rs : rules) (ex : exn) (thr : nat -> bool) (li : text -> text) (ys : list yop) (w : world) : option world :=
  match ys with
  | [] => Some w
  | y :: ys' =>
      match kvals (hmem w) (hvars w) with
      | Some a => match snd (ayexec rs li y a) with
                  | Ok _ | Throw _ => yrun rs ex thr li ys' (snd (yexec rs ex thr li y w))
                  | _ => None
                  end
      | None => None
      end
  end.
Lemma yrun_reach rs ex thr li ys : forall w w', yreach rs ex thr li w -> yrun rs ex thr li ys w = Some w' -> yreach rs ex thr li w'.
Proof.
  induction ys as [|y ys IH]; simpl; intros w w' H E. { inversion E; subst; auto. }
  destruct (kvals (hmem w) (hvars w)) as [a|] eqn:Ea; [|discriminate]. destruct (yexec rs ex thr li y w) as [r w1] eqn:Ex.
  eapply IH; [|destruct (snd (ayexec rs li y a)); try discriminate; exact E].
  eapply yreach_step; [exact H|apply kvals_agrees; exact Ea| |exact Ex].
  unfold ydefined. destruct (snd (ayexec rs li y a)); try discriminate; eauto.
Qed.
(** A program with an int column and a dataframe reads two columns of text from a file: a further dataframe with two blocks of its own. *)
Example C86_ex : exists w w1 a1 d, yrun default_rules BadAlloc never no_text yprog kinit = Some w /\ yreach default_rules BadAlloc never no_text w /\
  yexec default_rules BadAlloc never no_text (YRead 3 true is_nl is_tab sample) w = (Ok VUnit, w1) /\
  read true is_nl is_tab sample = Ok d /\ kvals (hmem w1) (hvars w1) = Some a1 /\ nth_error a1 2 = Some (AF d) /\
  map ncolumn (elems d) = [text_column [["1"]; ["3"]]%char; text_column [["2"]; ["4"]]%char] /\ length (live w1) = length (live w) + 2.
Proof.
  eexists; eexists; eexists; eexists. split; [vm_compute; reflexivity|].
  split; [apply (yrun_reach _ _ _ _ yprog kinit); [apply yreach_init|vm_compute; reflexivity]|].
  split; [vm_compute; reflexivity|]. split; [vm_compute; reflexivity|]. split; [vm_compute; reflexivity|].
  split; [vm_compute; reflexivity|]. split; vm_compute; reflexivity.
Qed.
(** Each of the operations fails in turn: only the blocks that were in use before are in use afterwards; reading into a variable keeps its column. *)
Definition yafter (k : nat) (y : yop) : option (bool * list nat) :=
  match yrun default_rules BadAlloc never no_text yprog kinit with
  | Some w => let '(r, w1) := yexec default_rules BadAlloc (at_op (hclock w + k)) no_text y w in
              Some (match r with Throw BadAlloc => true | _ => false end, live w1)
  | None => None
  end.
Definition before : list nat := match yrun default_rules BadAlloc never no_text yprog kinit with Some w => live w | None => [] end.
Example C86_fail_ex : before = [0] /\
  map (fun k => yafter k (YRead 3 true is_nl is_tab sample)) (seq 0 25) = repeat (Some (true, [0])) 25 /\
  yafter 25 (YRead 3 true is_nl is_tab sample) = Some (false, [0; 1; 2]) /\
  map (fun k => yafter k (YExtract 3 sample 1)) (seq 0 25) = repeat (Some (true, [0])) 25 /\
  yafter 25 (YExtract 3 sample 1) = Some (false, [1; 2]) /\
  map (fun k => yafter k (YRead 3 false is_nl is_tab sample)) (seq 0 27) = repeat (Some (true, [0])) 27 /\
  map (fun k => yafter k (YRead 3 true is_nl is_tab ["a"; "009"; "b"; "010"]%char)) (seq 0 15) = repeat (Some (true, [0])) 15.
Proof. vm_compute. repeat split; reflexivity. Qed.
(** Two columns of the same name: std::logic_error after the first column has been bound; its storage is released. *)
Example C86_dup_ex : exists w w1, yrun default_rules BadAlloc never no_text yprog kinit = Some w /\
  yexec default_rules BadAlloc never no_text (YRead 3 true is_nl is_tab ["a"; "009"; "a"; "010"; "1"; "009"; "1"]%char) w = (Throw LogicError, w1) /\
  live w1 = live w /\ length (hmem w) < length (hmem w1).
Proof. eexists; eexists. split; [vm_compute; reflexivity|]. split; [vm_compute; reflexivity|]. split; vm_compute; [reflexivity|repeat constructor]. Qed.
Example C86_program_ex : ymeaningful default_rules no_text (yprog ++ [YRead 3 true is_nl is_tab sample; YExtract 3 sample 1]) [] /\
  exists d, read true is_nl is_tab sample = Ok d /\
  yvalues default_rules no_text (yprog ++ [YRead 3 true is_nl is_tab sample; YExtract 3 sample 1]) [] = [AC None; AF d; AF d].
Proof.
  split; [|eexists; split; vm_compute; reflexivity].
  simpl. repeat split; unfold ydefined; left; eexists; vm_compute; reflexivity.
Qed.
