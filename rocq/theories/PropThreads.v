(** * PropThreads: C58, constant vectors and threads. *)

From Coq Require Import List Bool Arith Lia.
From Verif Require Import Base Threads ThreadsSpec LifeProofs ThreadsProofs.
Import ListNotations.
Local Open Scope nat_scope.

(** A schedule is a list of steps, each of one thread.  [vrun] runs it on values, where every object has elements of its own; [trun] runs
    it on shared vectors with use counts ([None]: the schedule asks a thread for a step that is not its next one). *)

(** Whatever the schedule, if the program does what values allow (no copy of a moved-from object, no shared variable destroyed while a
    thread copies it), then nothing undefined happens and every object of every thread has the elements it has as a value. *)
Theorem C58_value_semantics : forall (T : Type) n (gs : list (list T)) sch a,
  vrun sch (vinit n gs) = Some a -> trun sch (tinit n gs) <> None ->
  exists s, trun sch (tinit n gs) = Some (Ok s)
    /\ (forall t i l, vown a t i = Some l -> own s t i = Ok l)
    /\ (forall g l, vglobal a g = Some l -> global s g = Ok l).
Proof.
  intros T n gs sch a H N. destruct (run_values T sch _ _ _ (inv_init T n gs) H) as [E|[s [E I]]]; [congruence|]. exists s. split; [exact E|]. split.
  - intros t i l. now apply inv_own.
  - intros g l. now apply inv_global.
Qed.

(** Threads do not get stuck: one that is in the middle of a copy or of a destruction can go on, another can do everything that
    values allow. *)
Theorem C58_progress : forall (T : Type) n (gs : list (list T)) sch a s t th,
  vrun sch (vinit n gs) = Some a -> trun sch (tinit n gs) = Some (Ok s) -> nth_error (threads s) t = Some th ->
  match busy th with
  | Idle => forall o a', vstep t o a = Some a' -> o <> TDestroy -> exists s', tstep t o s = Some (Ok s')
  | Copying _ _ => exists s', tstep t TEndCopy s = Some (Ok s')
  | Destroying _ => exists s', tstep t TDestroy s = Some (Ok s')
  end.
Proof.
  intros T n gs sch a s t th H E Et. destruct (run_values T sch _ _ _ (inv_init T n gs) H) as [E'|[s1 [E' I]]]; [congruence|].
  assert (s1 = s) by congruence. subst s1. assert (B := inv_busy T s a t th I Et). destruct (busy th) eqn:Eb; auto.
  intros o a' V D. destruct (step_values T _ _ _ _ _ I V) as [F|[s' [F _]]]; [|eauto]. exfalso.
  unfold tstep in F. rewrite Et, Eb in F. unfold vstep in V. destruct (nth_error (vthreads a) t) as [vt|] eqn:Ev; [|discriminate].
  destruct (rl_nth _ _ _ _ _ (i_th _ _ _ I) Et) as [vt' [Ev' [Rh Rb]]]. assert (vt' = vt) by congruence. subst vt'. rewrite Eb in Rb. cbn in Rb.
  destruct (vcopy vt) as [|] eqn:Ec; [tauto|].
  destruct o as [l|i|g| |i|i j|i|g| |i u]; try discriminate; try congruence.
  - destruct (nth_error (vhs vt) i) as [[l|]|] eqn:Ei; try discriminate. destruct (rl_nth_r _ _ _ _ _ Rh Ei) as [p [Ep _]]. rewrite Ep in F. destruct p; discriminate.
  - destruct (nth_error (vglobals a) g) as [[l|]|] eqn:Ei; try discriminate. destruct (rl_nth_r _ _ _ _ _ (i_gl _ _ _ I) Ei) as [p [Ep _]]. rewrite Ep in F. destruct p; discriminate.
  - destruct (nth_error (vhs vt) i) as [l|] eqn:Ei; try discriminate. destruct (rl_nth_r _ _ _ _ _ Rh Ei) as [p [Ep _]]. rewrite Ep in F. discriminate.
  - destruct (nth_error (vhs vt) i) as [l|] eqn:Ei; try discriminate. destruct (nth_error (vhs vt) j) as [l'|] eqn:Ej; try discriminate.
    destruct (rl_nth_r _ _ _ _ _ Rh Ei) as [p [Ep _]]. destruct (rl_nth_r _ _ _ _ _ Rh Ej) as [q [Eq _]]. rewrite Ep, Eq in F. discriminate.
  - destruct (nth_error (vhs vt) i) as [l|] eqn:Ei; try discriminate. destruct (rl_nth_r _ _ _ _ _ Rh Ei) as [p [Ep _]]. rewrite Ep in F. discriminate.
  - destruct (nth_error (vglobals a) g) as [l|] eqn:Ei; try discriminate. destruct (rl_nth_r _ _ _ _ _ (i_gl _ _ _ I) Ei) as [p [Ep _]]. rewrite Ep in F. discriminate.
  - destruct (nth_error (vhs vt) i) as [l|] eqn:Ei; try discriminate. destruct (nth_error (vthreads a) u) as [vu|] eqn:Eu; try discriminate.
    destruct (rl_nth_r _ _ _ _ _ Rh Ei) as [p [Ep _]]. destruct (rl_nth_r _ _ _ _ _ (i_th _ _ _ I) Eu) as [tu [Etu _]]. rewrite Ep, Etu in F. destruct (Nat.eqb t u); discriminate.
Qed.

(** What the other threads do does not change the elements of a thread's objects. *)
Lemma vstep_other (T : Type) t o (a a' : vst T) u i l : vstep t o a = Some a' -> t <> u -> vown a u i = Some l -> vown a' u i = Some l.
Proof.
  intros H N V. unfold vstep in H. destruct (nth_error (vthreads a) t) as [vt|]; [|discriminate].
  assert (K : forall x G, vown (VSt (upd_nat (vthreads a) t x) G) u i = Some l).
  { intros x G. unfold vown in *. cbn [vthreads]. rewrite nth_upd. destruct (Nat.eqb_spec t u); [congruence|exact V]. }
  destruct (vcopy vt) as [[g' l']|]; destruct o as [l0|i0|g| |i0|i0 j|i0|g| |i0 w]; try discriminate;
    repeat match type of H with context [match ?x with _ => _ end] => destruct x eqn:?; try discriminate end; injection H as <-; auto.
  unfold vown. cbn [vthreads]. rewrite nth_upd. destruct (Nat.eqb_spec w u) as [->|Nw].
  - specialize (K (VTh (upd_nat (vhs vt) i0 None) None) (vglobals a)). unfold vown in K. cbn [vthreads] in K.
    destruct (nth_error (upd_nat (vthreads a) t (VTh (upd_nat (vhs vt) i0 None) None)) u) as [x|] eqn:Ex; [|discriminate].
    rewrite nth_upd in Ex. destruct (Nat.eqb_spec t u); [congruence|]. assert (x = v) by congruence. subst x. cbn [vhs].
    destruct (nth_error (vhs v) i) as [[y|]|] eqn:Ey; try discriminate. rewrite nth_error_app1 by (apply nth_error_Some; congruence). now rewrite Ey.
  - specialize (K (VTh (upd_nat (vhs vt) i0 None) None) (vglobals a)). exact K.
Qed.
Lemma vrun_app (T : Type) sch sch' : forall a a1 : vst T, vrun sch a = Some a1 -> vrun (sch ++ sch') a = vrun sch' a1.
Proof. induction sch as [|[t o] sch IH]; intros a a1; cbn; [congruence|]. destruct (vstep t o a); [apply IH|discriminate]. Qed.
Theorem C58_stable : forall (T : Type) n (gs : list (list T)) sch sch' a a' s' u i l,
  vrun sch (vinit n gs) = Some a -> vrun sch' a = Some a' -> trun (sch ++ sch') (tinit n gs) = Some (Ok s') ->
  (forall t o, In (t, o) sch' -> t <> u) -> vown a u i = Some l -> own s' u i = Ok l.
Proof.
  intros T n gs sch sch' a a' s' u i l H H' R N V.
  assert (V' : vown a' u i = Some l).
  { clear - H' N V. revert a H' V. induction sch' as [|[t o] sch' IH]; intros a H' V; cbn in H'; [congruence|].
    destruct (vstep t o a) as [a1|] eqn:E; [|discriminate]. apply (IH ltac:(intros t' o' X; apply (N t' o'); now right) a1 H').
    eapply vstep_other; [exact E| |exact V]. apply (N t o). now left. }
  assert (G : vrun (sch ++ sch') (vinit n gs) = Some a') by (rewrite (vrun_app _ _ _ _ _ H); exact H').
  destruct (C58_value_semantics T n gs _ _ G ltac:(congruence)) as [s1 [E1 [O _]]]. assert (s1 = s') by congruence. subst s1. auto.
Qed.

(** A vector is released when no object refers to it any more, not before and not later (but for the thread that is about to). *)
Theorem C58_released : forall (T : Type) n (gs : list (list T)) sch a s b,
  vrun sch (vinit n gs) = Some a -> trun sch (tinit n gs) = Some (Ok s) -> b < length (tmem s) ->
  (nth_error (tmem s) b = Some BFreed <-> ~ refers s b /\ forall th, In th (threads s) -> busy th <> Destroying b).
Proof.
  intros T n gs sch a s b H E L. destruct (run_values T sch _ _ _ (inv_init T n gs) H) as [E'|[s1 [E' I]]]; [congruence|].
  assert (s1 = s) by congruence. subst s1. now apply (inv_freed T s a).
Qed.

(** Nothing leaks: once all objects are destroyed or moved from, and all threads have finished what they were doing, all is released. *)
Theorem C58_no_leak : forall (T : Type) n (gs : list (list T)) sch a s,
  vrun sch (vinit n gs) = Some a -> trun sch (tinit n gs) = Some (Ok s) ->
  (forall p, In p (globals s) -> p = None) -> (forall th, In th (threads s) -> busy th = Idle /\ forall p, In p (hs th) -> p = None) ->
  forall x, In x (tmem s) -> x = BFreed.
Proof.
  intros T n gs sch a s H E G Th x Hx. apply In_nth_error in Hx as [b Hb]. assert (L : b < length (tmem s)) by (apply nth_error_Some; congruence).
  assert (F : nth_error (tmem s) b = Some BFreed); [|congruence]. apply (C58_released T n gs sch a s b H E L). split.
  - intros [Hg|[th [Hth Hh]]]; [apply G in Hg; discriminate|]. destruct (Th th Hth) as [_ Q]. apply Q in Hh. discriminate.
  - intros th Hth Eb. destruct (Th th Hth) as [Q _]. congruence.
Qed.

(** A released vector is never used or released again: a step that tried would be undefined, and its block stays as it is. *)
Theorem C58_released_once : forall (T : Type) t o (s s' : tst T) b,
  tstep t o s = Some (Ok s') -> nth_error (tmem s) b = Some BFreed -> nth_error (tmem s') b = Some BFreed.
Proof.
  intros T t o s s' b H F. unfold tstep in H. destruct (nth_error (threads s) t) as [th|]; [|discriminate].
  assert (K : forall b' x, nth_error (tmem s) b' <> Some BFreed -> nth_error (upd_nat (tmem s) b' x) b = Some BFreed).
  { intros b' x N. rewrite nth_upd. destruct (Nat.eqb_spec b' b); [congruence|exact F]. }
  assert (K1 : forall b' h, tincr (tmem s) b' = Ok h -> nth_error h b = Some BFreed).
  { intros b' h. unfold tincr. destruct (nth_error (tmem s) b') as [[l [|c]|]|] eqn:E; try discriminate. intros [= <-]. apply K. congruence. }
  assert (K2 : forall p r, tdrop (tmem s) p = Ok r -> nth_error (fst r) b = Some BFreed).
  { intros [b'|] r; cbn [tdrop]; [|intros [= <-]; exact F]. unfold tdecr. destruct (nth_error (tmem s) b') as [[l [|c]|]|] eqn:E; try discriminate. cbn. intros [= <-].
    apply K. congruence. }
  assert (K3 : forall b' h, tdestroy (tmem s) b' = Ok h -> nth_error h b = Some BFreed).
  { intros b' h. unfold tdestroy. destruct (nth_error (tmem s) b') as [[l c|]|] eqn:E; try discriminate. intros [= <-]. apply K. congruence. }
  destruct (busy th) as [|g b'|b'], o as [l|i|g0| |i|i j|i|g0| |i u]; try discriminate;
    repeat match type of H with
    | context [bindO (tincr ?h ?p) _] => destruct (tincr h p) eqn:?; cbn [bindO] in H; try discriminate
    | context [bindO (tdrop ?h ?p) _] => destruct (tdrop h p) eqn:?; cbn [bindO] in H; try discriminate
    | context [bindO (tdestroy ?h ?p) _] => destruct (tdestroy h p) eqn:?; cbn [bindO] in H; try discriminate
    | context [match ?x with _ => _ end] => destruct x eqn:?; try discriminate
    end; injection H as <-; cbn [tmem]; eauto.
  rewrite nth_error_app1; [exact F|]. apply nth_error_Some. congruence.
Qed.

(** Two threads, one shared variable with elements 7, 8.  Thread 0 begins to copy it; thread 1 copies it, makes a vector of its own and
    sends it to thread 0; both destroy their copies, the shared variable is destroyed (by thread 0), and its vector by whoever
    was last: here thread 1. *)
Definition sample_schedule : list (nat * top nat) :=
  [(0, TBeginCopy 0); (1, TBeginCopy 0); (1, TEndCopy); (1, TNew [5]); (0, TEndCopy); (1, TSend 1 0); (0, TDrop 0); (0, TDropGlobal 0); (1, TDrop 0)].
Example C58_ex : exists a s,
  vrun sample_schedule (vinit 2 [[7; 8]]) = Some a /\ trun sample_schedule (tinit 2 [[7; 8]]) = Some (Ok s)
  /\ vown a 0 1 = Some [5] /\ own s 0 1 = Ok [5] /\ tmem s = [BLive [7; 8] 0; BLive [5] 1]
  /\ map busy (threads s) = [Idle; Destroying 0]
  /\ exists s', tstep 1 TDestroy s = Some (Ok s') /\ tmem s' = [BFreed; BLive [5] 1].
Proof. do 2 eexists. repeat (split; [vm_compute; reflexivity|]). eexists. split; vm_compute; reflexivity. Qed.

(** Destroying a shared const_vector while another thread is copying it is a data race that the use count does not prevent: the copy
    may come too late. *)
Theorem C58_race_refuted : exists (gs : list (list nat)) sch,
  (forall p, In p sch -> fst p < 2) /\ trun sch (tinit 2 gs) = Some UB.
Proof.
  exists [[7; 8]], [(0, TBeginCopy 0); (1, TDropGlobal 0); (1, TDestroy); (0, TEndCopy)]. split; [|vm_compute; reflexivity].
  intros p [<-|[<-|[<-|[<-|[]]]]]; cbn; lia.
Qed.

Print Assumptions C58_value_semantics.
Print Assumptions C58_progress.
Print Assumptions C58_stable.
Print Assumptions C58_released.
Print Assumptions C58_no_leak.
Print Assumptions C58_released_once.
Print Assumptions C58_race_refuted.
