(** * ThrowsLife: programs over arrays and builders in the throwing build (JULES_DEBUG_THROWS).  Model, specification and proofs.

    See Throws.v for the build.  The functions are those of Life.v that contain checks; [RTerm] is [std::terminate]. *)

From Coq Require Import ZArith List Bool Lia Arith.
From Verif Require Import Base Spec Desc Lemmas DescProofs ViewProofs Life LifeSpec LifeProofs LifeList LifeSim LifeThms BuildsLife.
Import ListNotations.

(** ** model *)
Section Model.
Context {V : Type}.
Variable thr : nat -> bool.
Variable nt : bool.
Variable ns : bool.
Notation M := (@M V).
Notation "x <- m ;; k" := (bind m (fun x => k)) (at level 61, m at next level, right associativity).
Notation "m ;;' k" := (bind m (fun _ => k)) (at level 61, right associativity).

(** [DEBUG_ASSERT(c, default_module, ...)] in the throwing build (core/debug.hpp:43-58, 63). *)
Definition tmassert (c : bool) : M unit := fun w => (if c then ROk tt else RThrow, w).

(** [calculate_descriptor_fill] (array/array.hpp:404-412). *)
Fixpoint t_desc_fill (N : nat) : @nested V N -> M (list Z) :=
  match N with
  | O => fun _ => ret []
  | S N' => fun l =>
      tmassert (negb (Nat.eqb (length l) 0)) ;;'
      match l with
      | [] => ub
      | x :: _ => es <- t_desc_fill N' x ;; ret (Z.of_nat (length l) :: es)
      end
  end.

(** Initializer list constructor (array/array.hpp:184-196; the check: l.397-398): when the check throws, nothing has been allocated. *)
Definition t_ctor_list (N : nat) (l : @nested V N) : M arr :=
  es <- t_desc_fill N l ;;
  tmassert (desc_check N es l) ;;'
  b <- allocate thr (size_of es) ;;
  match visit N es [] l with
  | None => ub
  | Some ps =>
      on_throw (noexcept_if nt (construct_rec thr nt (Some b) es ps ps 0)) (deallocate (Some b)) ;;'
      ret (Arr (Some b) es)
  end.

(** [push_back] (array/builder.hpp:49-61): the rvalue overload is [noexcept]. *)
Definition t_bld_push (nx : bool) (b : bld) (v : V) : M bld :=
  noexcept_if nx
   (tmassert (negb (bld_complete b)) ;;'
    construct_at thr nt (bdata b) (bcount b) v ;;'
    ret (Bld (bdata b) (bexts b) (S (bcount b)))).
(** [release] (array/builder.hpp:72-77). *)
Definition t_bld_release (b : bld) : M (option nat * bld) :=
  tmassert (bld_complete b) ;;' ret (bdata b, Bld None (bexts b) 0).

(** One operation; those not listed contain no check. *)
Definition t_step (o : @op V) (ws : world * store) : res unit * (world * store) :=
  let (w, st) := ws in
  let bad := (RUB, ws) in
  match o with
  | OList x N l => if free_var st x then upd (t_ctor_list N l) st (fun a => setv st x (Some (OArr a))) w else bad
  | OAssignMove x y => (* array/array.hpp:308-314: [noexcept] *)
      match var st x, var st y with
      | Some (OArr a), Some (OArr s) =>
          if Nat.eqb x y then (RTerm, ws)
          else (ROk tt, (w, setv (setv st y (Some (OArr a))) x (Some (OArr s))))
      | _, _ => bad
      end
  | OPush x nx v =>
      match var st x with
      | Some (OBld b) => upd (t_bld_push nx b v) st (fun b' => setv st x (Some (OBld b'))) w
      | _ => bad
      end
  | OFinish x y => (* array/array.hpp:268: the parameter has been moved from y (builder.hpp:34-36); when [release] throws it is destroyed *)
      match free_var st x, var st y with
      | true, Some (OBld b) =>
          let moved := setv st y (Some (OBld (Bld None (bexts b) 0))) in
          upd (on_throw (t_bld_release b) (bld_destroy b)) moved (fun r => setv moved x (Some (OArr (Arr (fst r) (bexts b))))) w
      | _, _ => bad
      end
  | OReshape x y es => (* array/array.hpp:440-447: [noexcept] *)
      match free_var st x, var st y with
      | true, Some (OArr a) =>
          upd (noexcept_if true
               (tmassert (Z.eqb (desc_size (aexts a)) (desc_size es)) ;;'
                r <- t_bld_release (bld_adopt (adata a) es) ;; bld_destroy (snd r) ;;' ret (fst r))) st
              (fun p => setv (setv st y (Some (OArr (Arr None (aexts a))))) x (Some (OArr (Arr p es)))) w
      | _, _ => bad
      end
  | _ => step thr nt ns false o ws
  end.

(** As [runs] (Life.v). *)
Fixpoint t_runs (p : @prog V) (ws : world * store) : res (list bool) * (world * store) :=
  match p with
  | PEnd => (ROk [], ws)
  | PDo o p1 p2 =>
      let log (t : bool) (r : res (list bool) * (world * store)) :=
        match r with
        | (ROk l, ws'') => (ROk (t :: l), ws'')
        | r => r
        end in
      match t_step o ws with
      | (ROk _, ws') => log false (t_runs p1 ws')
      | (RThrow, ws') => log true (t_runs p2 ws')
      | (RAbort, ws') => (RAbort, ws')
      | (RUB, ws') => (RUB, ws')
      | (RTerm, ws') => (RTerm, ws')
      end
  end.
End Model.

(** ** specification *)
Section Spec.
Context {V : Type}.
Open Scope Z_scope.

(** Misuse that the throwing build reports with an exception: overfilling a builder (not with [push_back(T&&)]), making an array from an incomplete
    one, a nested list that is not rectangular. *)
Definition caught (o : @op V) (st : astore V) : Prop :=
  match o with
  | OPush x false v => (exists es vs, avar st x = Some (ABld es vs) /\ Z.of_nat (length vs) = zprod es) \/
                       (exists es, avar st x = Some (ABldMoved es) /\ zprod es = 0)
  | OFinish x y => afree st x /\ ((exists es vs, avar st y = Some (ABld es vs) /\ Z.of_nat (length vs) <> zprod es) \/
                                  (exists es, avar st y = Some (ABldMoved es) /\ zprod es <> 0))
  | OList x N l => afree st x /\ forall es, ~ rect N es l
  | _ => False
  end.
(** What remains: everything as before, except that a builder given away while incomplete is gone. *)
Definition acaught (o : @op V) (st : astore V) : astore V :=
  match o with
  | OFinish x y => match avar st y with Some (ABld es vs) => aset st y (Some (ABldMoved es)) | _ => st end
  | _ => st
  end.

(** Every operation is allowed, or misuse that is caught, when it is reached. *)
Fixpoint t_ok_prog (p : @prog V) (st : astore V) : Prop :=
  match p with
  | PEnd => True
  | PDo o p1 p2 =>
      (ok_op o st /\ t_ok_prog p1 (astep o st) /\ (forall st', athrow o st st' -> t_ok_prog p2 st')) \/
      (caught o st /\ t_ok_prog p2 (acaught o st))
  end.
(** Execution on values with the log of the operations that threw. *)
Inductive t_aexec : @prog V -> list bool -> astore V -> astore V -> Prop :=
| taexec_end st : t_aexec PEnd [] st st
| taexec_ok o p1 p2 log st st' : ok_op o st -> t_aexec p1 log (astep o st) st' -> t_aexec (PDo o p1 p2) (false :: log) st st'
| taexec_throw o p1 p2 log st st1 st' : ok_op o st -> athrow o st st1 -> t_aexec p2 log st1 st' -> t_aexec (PDo o p1 p2) (true :: log) st st'
| taexec_caught o p1 p2 log st st' : caught o st -> t_aexec p2 log (acaught o st) st' -> t_aexec (PDo o p1 p2) (true :: log) st st'.

(** Misuse that ends the program all the same: the check is in a [noexcept] function. *)
Definition ends (o : @op V) : bool := match o with OPush _ true _ | OAssignMove _ _ | OReshape _ _ _ => true | _ => false end.
End Spec.

(** ** proofs *)
Section Proofs.
Context {V : Type}.
Variable thr : nat -> bool.
Variable nt : bool.
Variable ns : bool.
Notation M := (@M V).
Notation world := (@world V).

(** The throwing build does what the checked one does, or throws in the same state. *)
Definition tiS {A S} (c t : res A * S) : Prop := t = c \/ (fst c = RAbort /\ t = (RThrow, snd c)).
Definition tiM {A} (c t : M A) : Prop := forall w, tiS (c w) (t w).
Lemma tiM_refl {A} (c : M A) : tiM c c.
Proof. intros w. now left. Qed.
Lemma tiM_bind {A B} (c t : M A) (f g : A -> M B) : tiM c t -> (forall a, tiM (f a) (g a)) -> tiM (bind c f) (bind t g).
Proof.
  intros H1 H2 w. unfold bind. destruct (H1 w) as [->|[E ->]].
  - destruct (c w) as [[] ?]; try (now left). apply H2.
  - destruct (c w) as [r w']. cbn in E. subst r. right. auto.
Qed.
Lemma tiM_assert b : tiM (massert true b) (tmassert b : M unit).
Proof. intros w. unfold massert, tmassert. destruct b; [left|right]; auto. Qed.
Lemma tiM_desc_fill : forall N (l : nested N), tiM (desc_fill true N l) (t_desc_fill N l).
Proof.
  induction N as [|N IH]; intros l; cbn [desc_fill t_desc_fill]; [apply tiM_refl|]. apply tiM_bind; [apply tiM_assert|]. intros _.
  destruct l as [|x l]; [apply tiM_refl|]. apply tiM_bind; [apply IH|]. intros es. apply tiM_refl.
Qed.
Lemma tiM_ctor_list N l : tiM (ctor_list thr nt true N l) (t_ctor_list thr nt N l).
Proof. unfold ctor_list, t_ctor_list. apply tiM_bind; [apply tiM_desc_fill|]. intros es. apply tiM_bind; [apply tiM_assert|]. intros _. apply tiM_refl. Qed.
Lemma tiM_release b : tiM (bld_release true b) (t_bld_release b : M _).
Proof. unfold bld_release, t_bld_release. apply tiM_bind; [apply tiM_assert|]. intros _. apply tiM_refl. Qed.

Lemma ctor_list_ragged N (l : @nested V N) (w : world) : (forall es, ~ rect N es l) -> t_ctor_list thr nt N l w = (RThrow, w).
Proof.
  intros Hn. assert (C : ctor_list thr nt true N l w = (RAbort, w)).
  { unfold ctor_list. destruct (desc_fill_check N l w) as [(es & E & Hp & Hl)|E].
    - rewrite (bind_ret _ _ _ _ _ E). destruct (desc_check N es l) eqn:Ec; [|reflexivity]. exfalso. apply (Hn es). apply desc_check_rect; auto.
    - unfold bind. rewrite E. reflexivity. }
  assert (T := tiM_ctor_list N l w). rewrite C in T. destruct T as [T|[_ T]]; [|exact T].
  unfold t_ctor_list in T. destruct (tiM_desc_fill N l w) as [D|[_ D]]; destruct (desc_fill_check N l w) as [(es & E & _)|E]; rewrite E in D; unfold bind in T; rewrite D in T; try discriminate T.
  - unfold tmassert at 1 in T. destruct (desc_check N es l); [|discriminate T]. exfalso. revert T.
    match goal with |- ?x = _ -> _ => assert (H : fst x <> RAbort) end.
    2:{ intros T. rewrite T in H. now apply H. }
    apply (naM_bind (allocate thr (size_of es))); [apply naM_allocate|]. intros b. destruct (visit N es [] l); [|apply naM_ub].
    apply naM_bind; [|intros; apply naM_ret]. apply naM_on_throw; [|apply naM_deallocate]. apply naM_noexcept, naM_construct_rec.
  - (* the fill itself *) exfalso. clear - D. assert (H : forall N (l : @nested V N) (w : world), fst (t_desc_fill N l w) <> RAbort).
    { clear. induction N as [|N IH]; intros l w; cbn [t_desc_fill]; [discriminate|]. unfold bind, tmassert. destruct l as [|x l]; cbn [length Nat.eqb negb]; [discriminate|].
      specialize (IH x w). destruct (t_desc_fill N x w) as [[] ?]; cbn in *; congruence. }
    specialize (H N l w). rewrite D in H. now apply H.
Qed.

Hypothesis Hns : nt = true -> ns = true.

(** An allowed operation never fails a check: the throwing build is the checked one. *)
Lemma step_not_abort (o : @op V) l w st ast : Inv l w st ast -> ok_op o ast -> push_safe nt o -> fst (step thr nt ns true o (w, st)) <> RAbort.
Proof. intros HI Ho Hp. destruct (step_outcome thr nt ns Hns true o l w st ast HI Ho Hp) as [(? & ? & -> & _)|(? & ? & ? & -> & _)]; discriminate. Qed.

(** Upper bound on what differs, for every operation and state: where the checked build does not stop, the throwing one is the same. *)
Lemma upd_eq {A} (c t : M A) st f (w : world) : t w = c w -> upd t st f w = upd c st f w.
Proof. intros E. unfold upd. rewrite E. reflexivity. Qed.
Lemma upd_abort {A} (c : M A) st f (w : world) : fst (upd c st f w) = RAbort -> fst (c w) = RAbort.
Proof. unfold upd. destruct (c w) as [[] ?]; cbn; congruence. Qed.
Lemma tiS_keep {A S} (c t : res A * S) : tiS c t -> fst c <> RAbort -> t = c.
Proof. intros [->|[E _]] N; [reflexivity|contradiction]. Qed.

Lemma push_push nx b v (w : world) : fst (bld_push thr nt true nx b v w) <> RAbort -> t_bld_push thr nt nx b v w = bld_push thr nt true nx b v w.
Proof.
  unfold bld_push, t_bld_push, noexcept_if, bind, massert, tmassert. cbn [andb]. destruct (bld_complete b); cbn [negb].
  - cbn. congruence.
  - reflexivity.
Qed.

Lemma same_step (o : @op V) ws : fst (step thr nt ns true o ws) <> RAbort -> t_step thr nt ns o ws = step thr nt ns true o ws.
Proof.
  destruct ws as [w st]. destruct o; intros HN; cbn [t_step]; try reflexivity; cbn [step] in *.
  - destruct (free_var st x); [|reflexivity]. apply upd_eq. apply tiS_keep; [apply tiM_ctor_list|]. intros E. apply HN. unfold upd. destruct (ctor_list thr nt true N l w) as [[] ?]; cbn in *; congruence.
  - destruct (var st x) as [[]|]; try reflexivity. destruct (var st y) as [[]|]; try reflexivity. destruct (Nat.eqb x y); [|reflexivity]. exfalso; now apply HN.
  - destruct (var st x) as [[]|]; try reflexivity. apply upd_eq, push_push. intros E. apply HN. unfold upd. destruct (bld_push thr nt true nx b v w) as [[] ?]; cbn in *; congruence.
  - destruct (free_var st x); [|reflexivity]. destruct (var st y) as [[|b]|]; try reflexivity. revert HN.
    unfold upd, on_throw, t_bld_release, bld_release, bind, tmassert, massert. cbn [andb]. destruct (bld_complete b); cbn [negb]; [reflexivity|]. intros HN. exfalso; now apply HN.
  - destruct (free_var st x); [|reflexivity]. destruct (var st y) as [[a|]|]; try reflexivity. revert HN.
    unfold upd, noexcept_if, t_bld_release, bld_release, bind, tmassert, massert. cbn [andb]. destruct (Z.eqb (desc_size (aexts a)) (desc_size es)); cbn [negb]; [|intros HN; exfalso; now apply HN].
    destruct (bld_complete (bld_adopt (adata a) es)); cbn [negb]; [reflexivity|]. intros HN. exfalso; now apply HN.
Qed.

(** Where the checked build stops, so does the throwing build in the [noexcept] functions. *)
Lemma ends_step (o : @op V) ws : fst (step thr nt ns true o ws) = RAbort -> ends o = true -> fst (t_step thr nt ns o ws) = RTerm.
Proof.
  destruct ws as [w st]. destruct o as [| | | | | | | | | | |x nx v| |]; intros HN E; try discriminate E; cbn [t_step step] in *.
  - destruct (var st x) as [[]|]; try discriminate HN. destruct (var st y) as [[]|]; try discriminate HN. destruct (Nat.eqb x y); [reflexivity|discriminate HN].
  - destruct nx; [|discriminate E]. destruct (var st x) as [[|b]|]; try discriminate HN. apply upd_abort in HN. revert HN.
    unfold upd, bld_push, t_bld_push, noexcept_if, bind, massert, tmassert. cbn [andb]. destruct (bld_complete b); cbn [negb]; [reflexivity|].
    assert (A := naM_construct thr nt (bdata b) (bcount b) v w). destruct (construct_at thr nt (bdata b) (bcount b) v w) as [[] ?]; cbn in *; congruence.
  - destruct (free_var st x); [|discriminate HN]. destruct (var st y) as [[a|]|]; try discriminate HN. apply upd_abort in HN. revert HN.
    unfold upd, noexcept_if, t_bld_release, bld_release, bind, massert, tmassert. cbn [andb]. destruct (Z.eqb (desc_size (aexts a)) (desc_size es)); cbn [negb]; [|reflexivity].
    destruct (bld_complete (bld_adopt (adata a) es)); cbn [negb]; [|reflexivity]. cbn. discriminate.
Qed.

(** Caught misuse. *)
Lemma caught_step (o : @op V) l w st ast : Inv l w st ast -> caught o ast ->
  exists w' st', t_step thr nt ns o (w, st) = (RThrow, (w', st')) /\ Inv l w' st' (acaught o ast).
Proof.
  intros HI Hc. destruct w as [bs k]. destruct o as [| | |x N ll| | | | | | | |x [] v|x y|]; try contradiction; cbn [t_step caught acaught] in *.
  - destruct Hc as [Hf Hn]. destruct (free_conc _ _ _ _ x HI Hf) as (Efv & Hx & Ex). rewrite Efv. unfold upd. rewrite ctor_list_ragged by exact Hn. do 2 eexists. split; [reflexivity|exact HI].
  - assert (exists b, oat st x = Some (OBld b) /\ bld_complete b = true) as (b & Eb & Cb).
    { destruct Hc as [(es & vs & Ex & Hl)|(es & Ex & Hz)].
      - destruct (bld_inv thr _ _ _ _ _ _ _ _ HI Ex) as (b & Ex' & Hfit & Hle & Hb & Hyl). eexists. split; [exact Ex'|]. unfold bld_complete. cbn [bexts bcount].
        rewrite (size_of_fits es Hfit). apply Nat.eqb_eq. lia.
      - destruct (bldm_inv thr _ _ _ _ _ _ _ HI Ex) as (Ex' & Hfit & Hyl). eexists. split; [exact Ex'|]. unfold bld_complete. cbn [bexts bcount].
        rewrite (size_of_fits es Hfit). apply Nat.eqb_eq. lia. }
    rewrite var_oat, Eb. unfold upd, t_bld_push, noexcept_if, bind, tmassert. rewrite Cb. cbn [negb]. do 2 eexists. split; [reflexivity|exact HI].
  - destruct Hc as [Hf Hc]. destruct (free_conc _ _ _ _ x HI Hf) as (Efv & Hx & Ex). rewrite Efv, var_oat.
    destruct Hc as [(es & vs & Ey & Hl)|(es & Ey & Hz)]; rewrite Ey.
    + destruct (bld_inv thr _ _ _ _ _ _ _ _ HI Ey) as (b & Ey' & Hfit & Hle & Hb & Hyl). rewrite Ey'. unfold upd, on_throw, t_bld_release, bind, tmassert.
      assert (Cb : bld_complete (Bld (Some b) es (length vs)) = false). { unfold bld_complete. cbn [bexts bcount]. rewrite (size_of_fits es Hfit). apply Nat.eqb_neq. lia. }
      rewrite Cb. rewrite (bld_destroy_spec es vs b bs k Hfit Hle Hb). do 2 eexists. split; [reflexivity|].
      apply (Inv_free thr l bs k k st ast y b (Some (OBld (Bld None es 0))) (Some (ABldMoved es))); auto.
      * unfold own. rewrite Ey'. reflexivity.
      * cbn. auto.
    + destruct (bldm_inv thr _ _ _ _ _ _ _ HI Ey) as (Ey' & Hfit & Hyl). rewrite Ey'. unfold upd, on_throw, t_bld_release, bind, tmassert.
      assert (Cb : bld_complete (Bld None es 0) = false). { unfold bld_complete. cbn [bexts bcount]. rewrite (size_of_fits es Hfit). apply Nat.eqb_neq. pose proof (zprod_bound es Hfit). lia. }
      rewrite Cb. cbn [bld_destroy bdata ret]. do 2 eexists. split; [reflexivity|]. unfold setv. cbn [bexts]. rewrite <- Ey'.  rewrite upd_oat by exact Hyl. exact HI.
Qed.

Lemma t_runs_sim (p : @prog V) : forall l w st ast, Inv l w st ast -> t_ok_prog p ast -> pushes_safe nt p ->
  exists log w' st' ast', t_runs thr nt ns p (w, st) = (ROk log, (w', st')) /\ t_aexec p log ast ast' /\ Inv (l || assign_threw p log) w' st' ast'.
Proof.
  induction p as [|o p1 IH1 p2 IH2]; intros l w st ast HI Hok Hp.
  - exists [], w, st, ast. split; [reflexivity|]. split; [constructor|]. cbn [assign_threw]. apply Inv_weak. auto.
  - destruct Hp as (Hp & Hp1 & Hp2). cbn [t_runs]. destruct Hok as [(Ho & Hok1 & Hok2)|(Hc & Hok2)].
    + rewrite (same_step o (w, st)) by (eapply step_not_abort; eauto).
      destruct (step_outcome thr nt ns Hns true o l w st ast HI Ho) as [(w1 & st1 & E & HI1)|(w1 & st1 & ast1 & E & Ht & HI1)]; auto; rewrite E.
      * destruct (IH1 l w1 st1 _ HI1 Hok1 Hp1) as (log & w' & st' & ast' & E' & Hx & HI').
        exists (false :: log), w', st', ast'. rewrite E'. split; [reflexivity|]. split; [constructor; auto|].
        cbn [assign_threw]. rewrite andb_false_r. exact HI'.
      * destruct (IH2 _ w1 st1 _ HI1 (Hok2 _ Ht) Hp2) as (log & w' & st' & ast' & E' & Hx & HI').
        exists (true :: log), w', st', ast'. rewrite E'. split; [reflexivity|]. split; [econstructor; eauto|].
        cbn [assign_threw]. rewrite andb_true_r, orb_assoc. exact HI'.
    + destruct (caught_step o l w st ast HI Hc) as (w1 & st1 & E & HI1). rewrite E.
      destruct (IH2 l w1 st1 _ HI1 Hok2 Hp2) as (log & w' & st' & ast' & E' & Hx & HI').
      exists (true :: log), w', st', ast'. rewrite E'. split; [reflexivity|]. split; [apply taexec_caught; auto|].
      cbn [assign_threw]. replace (is_assign o) with false by (destruct o; try reflexivity; contradiction). exact HI'.
Qed.
End Proofs.
