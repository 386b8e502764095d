(** * PropBorrow: C41, views that refer to a std::vector of the program. *)

From Coq Require Import List Bool PeanoNat Lia.
From Verif Require Import Base Shared SharedSpec SharedProofs.
Import ListNotations.
Local Open Scope nat_scope.

Section S.
Context {T : Type}.

Lemma incr_owned (h h' : heap T) p b l : incr h p = Ok h' -> nth_error h b = Some (Owned l) -> nth_error h' b = Some (Owned l).
Proof.
  destruct p as [c|]; simpl; [|congruence]. destruct (nth_error h c) as [[m k|m|]|] eqn:E; try discriminate.
  intros [= <-] H. rewrite upd_other; auto. intros ->. congruence.
Qed.
Lemma release_owned (h h' : heap T) p b l : release h p = Ok h' -> nth_error h b = Some (Owned l) -> nth_error h' b = Some (Owned l).
Proof.
  destruct p as [c|]; simpl; [|congruence]. destruct (nth_error h c) as [[m [|[|k]]|m|]|] eqn:E; try discriminate;
  intros [= <-] H; (rewrite upd_other; [auto|]); intros ->; congruence.
Qed.

(** One std::vector per block. *)
Lemma cnt_two {A} (f : A -> bool) l i j x y : i <> j -> nth_error l i = Some x -> nth_error l j = Some y ->
  f x = true -> f y = true -> 2 <= cnt f l.
Proof.
  revert i j. induction l as [|z l IH]; intros [|i] [|j] N Hi Hj Fx Fy; simpl in *; try discriminate; try lia.
  - injection Hi as ->. pose proof (cnt_pos f l j y Hj Fy). rewrite Fx. simpl. lia.
  - injection Hj as ->. pose proof (cnt_pos f l i x Hi Fx). rewrite Fy. simpl. lia.
  - assert (2 <= cnt f l) by (apply (IH i j); auto; lia). lia.
Qed.
Lemma one_owner (h : heap T) o b l i j : hinv T h o -> nth_error h b = Some (Owned l) ->
  nth_error o i = Some (OVec b) -> nth_error o j = Some (OVec b) -> i = j.
Proof.
  intros H E Hi Hj. specialize (H b). rewrite E in H. destruct H as [_ H].
  destruct (Nat.eq_dec i j) as [|N]; auto.
  pose proof (cnt_two (vown b) o i j _ _ N Hi Hj). simpl in H0. rewrite Nat.eqb_refl in H0. specialize (H0 eq_refl eq_refl). lia.
Qed.

(** Vector [i] in block [b], and view [v] of its elements from [off]. *)
Definition borrows (s : st T) i v b off len n : Prop :=
  nth_error (objs s) i = Some (OVec b) /\ nth_error (objs s) v = Some (OView None b off len) /\
  exists l, nth_error (mem s) b = Some (Owned l) /\ length l = n.

Lemma snoc_old {A} (l : list A) x j y : nth_error l j = Some y -> nth_error (l ++ [x]) j = Some y.
Proof. apply nth_old. Qed.

Lemma borrows_step s s' c i v b off len n :
  hinv T (mem s) (objs s) -> borrows s i v b off len n -> sexec c s = Ok s' ->
  (In i (changes c) -> exists p x, c = VecSet i p x) -> ~ In v (changes c) ->
  borrows s' i v b off len n.
Proof.
  intros I (Hi & Hv & l & Hb & Hl) E Ci Cv.
  destruct s as [h o]. simpl in *.
  assert (Ki : forall k y, k <> i -> nth_error (upd_nat o k y) i = Some (OVec b)) by (intros; rewrite upd_other; auto).
  assert (Kv : forall k y, k <> v -> nth_error (upd_nat o k y) v = Some (OView None b off len)) by (intros; rewrite upd_other; auto).
  assert (Own : forall k, nth_error o k = Some (OVec b) -> k = i) by (intros k Hk; symmetry; eapply one_owner; eauto).
  destruct c as [m|k|k|k j|k j|m|k p x|k m|k|k|k o1 n1|k|m|k|k|k j|k j|k]; simpl in E, Ci, Cv;
  repeat match type of E with
    | context [match nth_error ?x ?y with _ => _ end] => let F := fresh "F" in destruct (nth_error x y) as [[]|] eqn:F; try discriminate E
    | context [if ?x then _ else _] => let F := fresh "F" in destruct x eqn:F; try discriminate E
    | context [let* _ := incr ?x ?y in _] => let F := fresh "F" in destruct (incr x y) eqn:F; try discriminate E; simpl in E
    | context [let* _ := release ?x ?y in _] => let F := fresh "F" in destruct (release x y) eqn:F; try discriminate E; simpl in E
    | context [let* _ := deref ?x ?y in _] => let F := fresh "F" in destruct (deref x y) eqn:F; try discriminate E; simpl in E
    | context [match ?p with Some _ => _ | None => _ end] => is_var p; destruct p; try discriminate E
    end;
  injection E as <-; unfold borrows; simpl;
  try (assert (k <> i) by (intros ->; destruct Ci as (q & z & Q); [left; reflexivity|congruence]));
  try (assert (k <> v) by (intros ->; apply Cv; left; reflexivity));
  try (assert (j <> i) by (intros ->; destruct Ci as (q & z & Q); [right; left; reflexivity|congruence]));
  try (assert (j <> v) by (intros ->; apply Cv; right; left; reflexivity)).
  all: try (match goal with
            | |- _ /\ _ /\ _ =>
              split; [first [exact Hi|apply snoc_old; exact Hi|apply snoc_old; apply Ki; assumption|apply Ki; assumption
                            |rewrite upd_other by auto; apply Ki; assumption]|];
              split; [first [exact Hv|apply snoc_old; exact Hv|apply snoc_old; apply Kv; assumption|apply Kv; assumption
                            |rewrite upd_other by auto; apply Kv; assumption]|]
            end).
  all: try (exists l; split; [|exact Hl];
            first [exact Hb|apply snoc_old; exact Hb|eapply incr_owned; eassumption|eapply release_owned; eassumption
                  |eapply release_owned; [eassumption|]; eapply incr_owned; eassumption]).
  - (* VecSet *)
    destruct (Nat.eq_dec b0 b) as [->|N].
    + rewrite Hb in F0. injection F0 as <-. eexists. split; [apply upd_same; apply nth_lt in Hb; exact Hb|]. rewrite upd_len. exact Hl.
    + exists l. split; [rewrite upd_other; auto|auto].
  - exists l. split; [|exact Hl]. apply snoc_old. rewrite upd_other; auto. intros ->. apply Own in F. congruence.
  - exists l. split; [|exact Hl]. apply snoc_old. rewrite upd_other; auto. intros ->. apply Own in F. congruence.
  - exists l. split; [|exact Hl]. rewrite upd_other; auto. intros ->. apply Own in F. congruence.
Qed.

Lemma borrows_run cs' : forall a s s' i v b off len n,
  sim T a s -> borrows s i v b off len n -> srun cs' s = Ok s' ->
  (forall c, In c cs' -> (In i (changes c) -> exists p x, c = VecSet i p x) /\ ~ In v (changes c)) ->
  borrows s' i v b off len n.
Proof.
  induction cs' as [|c cs' IH]; intros a s s' i v b off len n S B R C; simpl in R.
  - injection R as <-. exact B.
  - destruct (sexec c s) as [s1| | | |] eqn:E; try discriminate R. simpl in R.
    pose proof (sexec_sim T a s c S) as X. destruct (vexec c a) as [a'|]; [|congruence].
    destruct X as (s2 & E2 & S2). rewrite E in E2. injection E2 as <-.
    destruct (C c (or_introl eq_refl)) as [C1 C2].
    eapply (IH a'); eauto.
    + eapply borrows_step; eauto. apply S.
    + intros d D. apply C. right. exact D.
Qed.

End S.

(** ** C41: a view that refers to a vector of the program follows that vector *)

(** An index_view made from (a range of) a std::vector of the program (constructor
    index_view(const std::vector<index_t>&) or pointers into it) reads exactly the chosen range
    of the *current* elements of that vector, whatever the program does afterwards, as long as
    it neither destroys, moves, resizes nor reallocates the vector (element writes are allowed)
    nor changes the view itself. *)
Theorem C41_borrowed_view : forall (T : Type) (cs cs' : list (scmd T)) s s1 s' i off len,
  srun cs init = Ok s -> sexec (ViewBorrow i off len) s = Ok s1 -> srun cs' s1 = Ok s' ->
  let v := length (objs s) in
  (forall c, In c cs' -> (In i (changes c) -> exists p x, c = VecSet i p x) /\ ~ In v (changes c)) ->
  exists l, contents s' i = Ok l /\ off + len <= length l /\
    contents s' v = Ok (firstn len (skipn off l)) /\
    (forall p, p < len -> cv_index s' v p = cv_index s' i (off + p)).
Proof.
  intros T cs cs' s s1 s' i off len R B R' v C.
  assert (S : exists a, sim T a s).
  { pose proof (srun_sim T cs [] init (sim_init T)) as X. destruct (vrun cs []) as [a|]; [|congruence].
    destruct X as (s2 & E2 & S2). rewrite R in E2. injection E2 as <-. eauto. }
  destruct S as (a & S).
  assert (S1 : exists a, sim T a s1).
  { pose proof (sexec_sim T a s (ViewBorrow i off len) S) as X. destruct (vexec _ a) as [a'|]; [|congruence].
    destruct X as (s2 & E2 & S2). rewrite B in E2. injection E2 as <-. eauto. }
  destruct S1 as (a1 & S1).
  simpl in B. destruct (nth_error (objs s) i) as [[|b| |]|] eqn:Oi; try discriminate.
  destruct (nth_error (mem s) b) as [[|l|]|] eqn:Mb; try discriminate.
  destruct (off + len <=? length l) eqn:L; [|discriminate]. apply Nat.leb_le in L. injection B as <-.
  assert (Q : borrows s' i v b off len (length l)).
  { eapply borrows_run; [exact S1| |exact R'|exact C]. unfold borrows. simpl.
    split; [apply nth_old; exact Oi|]. split; [apply nth_new|]. eauto. }
  destruct Q as (Qi & Qv & l' & Qb & Ql). exists l'.
  assert (Ei : contents s' i = Ok l') by (unfold contents; rewrite Qi, Qb; reflexivity).
  assert (Ev : contents s' v = Ok (firstn len (skipn off l'))).
  { unfold contents. rewrite Qv. unfold read_range. rewrite Qb. destruct (off + len <=? length l') eqn:L'; auto.
    apply Nat.leb_gt in L'. lia. }
  split; [exact Ei|]. split; [lia|]. split; [exact Ev|].
  intros p P. unfold cv_index. rewrite Ei, Ev. simpl.
  assert (E : nth_error (firstn len (skipn off l')) p = nth_error l' (off + p)).
  { clear - P. revert len l' p P. induction off as [|off IH]; intros len l' p P; simpl.
    - revert len p P. induction l' as [|x l' IH']; intros [|len] [|p] P; simpl; try lia; auto. apply IH'. lia.
    - destruct l' as [|x l']; simpl; [rewrite firstn_nil; destruct p; reflexivity|]. apply IH. exact P. }
  rewrite E. reflexivity.
Qed.
Print Assumptions C41_borrowed_view.

(** A view of the last two of three elements; one of them is written; other objects come and go. *)
Example C41_borrowed_view_ex : exists s s1 s',
  srun [NewCv [1]; NewVec [4; 5; 6]] init = Ok s /\ sexec (@ViewBorrow nat 1 1 2) s = Ok s1 /\
  srun [VecSet 1 2 9; CopyCv 0; Destroy 0; CopyView 2; NewVec [7]] s1 = Ok s' /\
  contents s1 2 = Ok [5; 6] /\ contents s' 2 = Ok [5; 9] /\ contents s' 4 = Ok [5; 9] /\
  (forall c, In c [VecSet 1 2 9; CopyCv 0; Destroy 0; CopyView 2; NewVec [7]] ->
     (In 1 (changes c) -> exists p x, c = VecSet 1 p x) /\ ~ In 2 (changes c)).
Proof.
  eexists. eexists. eexists. do 6 (split; [reflexivity|]).
  intros c H. simpl in H. repeat (destruct H as [<-|H]; [split; [|simpl; lia]; simpl; intros Q; try lia; eauto|]). destruct H.
Qed.
