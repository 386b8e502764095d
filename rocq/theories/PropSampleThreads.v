(** * PropSampleThreads: C83, samples drawn by several threads; the default engine. *)

From Coq Require Import ZArith List Bool Lia Floats.SpecFloat.
From Verif Require Import Base Spec Coerce Random RandomSpec RandomProofs Stats PropRandom Dist DistSpec DistProofs DistDiscrete PropDist PropUniform.
From Verif Require Import Mt MtSpec MtProofs SampleThreads SampleThreadsSpec SampleThreadsProofs.
Import ListNotations.
Open Scope Z_scope.

(** ** the default engine *)

(** std::mt19937 with any seed: its outputs are those of the standard's recurrence, which the seed determines, and are below 2^32 (as C79 and C80
    assume). *)
Theorem C83_engine : forall seed, exists X, mt_words seed X
  /\ (forall X', mt_words seed X' -> forall i, X' i = X i)
  /\ forall k, mt_output seed k = tempered (X (624 + k)%nat) /\ 0 <= mt_output seed k < 2 ^ 32.
Proof.
  intros sd. exists (MtProofs.X sd). pose proof (X_words sd) as W. split; [exact W|]. split.
  - intros X' W' i. apply (words_unique sd X' _ W' W (S i)). lia.
  - intros k. exact (outputs_of_words sd k).
Qed.
Print Assumptions C83_engine.
(** The value that the standard requires of the default seed: the 10000th output ([rand.predef]). *)
Example C83_engine_ex : mt_output 5489 (Z.to_nat 9999) = 4123659995.
Proof. vm_compute. reflexivity. Qed.

(** ** all schedules *)

(** Threads use their own default engines, objects that no other thread uses, or objects that everybody uses with a mutex.  Whatever the
    schedule: nothing undefined happens; every thread has done the first items of its program, in order; and the items done with one engine have
    the results that they have one after the other, every call with the outputs that follow those of the call before. *)
Theorem C83_one_after_the_other : forall out progs seeds sch, not_shared progs ->
  exists s, srun out sch (sinit progs seeds) = Ok s
    /\ (forall t, map fst (by_thread t (log s)) ++ todo s t = progs t)
    /\ forall e, exists sd p, one_after_the_other out (seeds e) 0 (with_engine e (log s)) sd p.
Proof.
  intros out progs seeds sch N. destruct (run_inv out progs seeds N sch _ (inv_init out progs seeds)) as (s & E & I).
  exists s. split; [exact E|]. split; [exact (i_prog _ _ _ _ I)|]. intros e. destruct (i_eng _ _ _ _ I e) as (sd & p & D & _). eauto.
Qed.
Print Assumptions C83_one_after_the_other.

(** A call that has its result on the outputs it draws has it whatever comes after them, and leaves that. *)
Theorem C83_leaves_the_rest : forall c l v rest, results_in c l (Ok v) -> perform c (l ++ rest) = Ok (v, rest).
Proof. intros c l v rest H. exact (results_more c l (Ok v) rest H). Qed.
Print Assumptions C83_leaves_the_rest.

(** No thread waits for ever: one that is not done can take a step, or waits for a mutex whose holder can. *)
Theorem C83_progress : forall out progs seeds sch s t, not_shared progs -> srun out sch (sinit progs seeds) = Ok s -> todo s t <> [] ->
  sstep out t s <> None \/ exists u k, u <> t /\ lock s k = Some u /\ sstep out u s <> None.
Proof.
  intros out progs seeds sch s t N E T. destruct (run_inv out progs seeds N sch _ (inv_init out progs seeds)) as (s' & E' & I).
  rewrite E in E'. injection E' as <-. exact (progress out progs seeds s t I T).
Qed.
Print Assumptions C83_progress.

(** *** the results are determined *)

(** What was asked of an engine. *)
Definition request (i : item) : scall + Z := match i with Sample _ c => inl c | Seed _ s => inr s end.
Lemma done_det out sd p l : forall sd1 p1, one_after_the_other out sd p l sd1 p1 -> forall l' sd2 p2, one_after_the_other out sd p l' sd2 p2 ->
  map (fun x => request (fst x)) l = map (fun x => request (fst x)) l' -> map snd l = map snd l'.
Proof.
  intros sd1 p1 H. induction H as [|sd p w c n o l sd1 p1 R H IH|sd p w s l sd1 p1 H IH]; intros l' sd2 p2 H' E.
  - destruct l'; [reflexivity|discriminate].
  - inversion H' as [|? ? w' c' n' o' l2 ? ? R' H2|]; subst; cbn [map fst request] in E; try discriminate.
    injection E as Ec El. subst c'. destruct (results_unique out c sd p n n' o o' R R') as [<- <-]. cbn [map snd]. f_equal. eauto.
  - inversion H' as [| |? ? w' s' l2 ? ? H2]; subst; cbn [map fst request] in E; try discriminate.
    injection E as Ec El. subst s'. cbn [map snd]. f_equal. eauto.
Qed.
(** In any two runs, with any two engines that have the same seed and are asked the same: the same results, whatever the programs of the other
    threads, the other engines and the schedules are. *)
Theorem C83_determined : forall out progs progs' seeds seeds' sch sch' s s' e e', not_shared progs -> not_shared progs' ->
  srun out sch (sinit progs seeds) = Ok s -> srun out sch' (sinit progs' seeds') = Ok s' -> seeds e = seeds' e' ->
  map (fun x => request (fst x)) (with_engine e (log s)) = map (fun x => request (fst x)) (with_engine e' (log s')) ->
  map snd (with_engine e (log s)) = map snd (with_engine e' (log s')).
Proof.
  intros out progs progs' seeds seeds' sch sch' s s' e e' N N' E E' S1 R.
  destruct (C83_one_after_the_other out progs seeds sch N) as (s1 & E1 & _ & D). rewrite E in E1. injection E1 as <-.
  destruct (C83_one_after_the_other out progs' seeds' sch' N') as (s2 & E2 & _ & D'). rewrite E' in E2. injection E2 as <-.
  destruct (D e) as (sd & p & H). destruct (D' e') as (sd' & p' & H'). rewrite <- S1 in H'. eapply done_det; eauto.
Qed.
Print Assumptions C83_determined.

Lemma done_split out l : forall sd p x l2 sd1 p1, one_after_the_other out sd p (l ++ x :: l2) sd1 p1 ->
  exists sd2 p2, one_after_the_other out sd2 p2 (x :: l2) sd1 p1.
Proof. induction l as [|y l IH]; intros sd p x l2 sd1 p1 H; cbn [app] in H; [eauto|]. inversion H; subst; eauto. Qed.
(** Seeding makes the samples that follow reproducible: after [g.seed(s)] the results depend on s and on what is asked only. *)
Theorem C83_reproducible : forall out progs progs' seeds seeds' sch sch' st st' e e' s l l' w w' o o' r r', not_shared progs -> not_shared progs' ->
  srun out sch (sinit progs seeds) = Ok st -> srun out sch' (sinit progs' seeds') = Ok st' ->
  with_engine e (log st) = l ++ (Seed w s, o) :: r -> with_engine e' (log st') = l' ++ (Seed w' s, o') :: r' ->
  map (fun x => request (fst x)) r = map (fun x => request (fst x)) r' -> map snd r = map snd r'.
Proof.
  intros out progs progs' seeds seeds' sch sch' st st' e e' s l l' w w' o o' r r' N N' E E' L L' R.
  destruct (C83_one_after_the_other out progs seeds sch N) as (s1 & E1 & _ & D). rewrite E in E1. injection E1 as <-.
  destruct (C83_one_after_the_other out progs' seeds' sch' N') as (s2 & E2 & _ & D'). rewrite E' in E2. injection E2 as <-.
  destruct (D e) as (sd & p & H). destruct (D' e') as (sd' & p' & H'). rewrite L in H. rewrite L' in H'.
  apply done_split in H. destruct H as (a & b & H). apply done_split in H'. destruct H' as (a' & b' & H').
  inversion H; subst. inversion H'; subst. eapply done_det; eauto.
Qed.
Print Assumptions C83_reproducible.

(** The samples of a thread that uses the default engines only do not depend on the other threads: in any two runs in which its program and
    the seeds of its engines are the same, what it has done in both has the same results. *)
Lemma done_prefix out l : forall sd p l2 sd1 p1, one_after_the_other out sd p (l ++ l2) sd1 p1 -> exists sd2 p2, one_after_the_other out sd p l sd2 p2.
Proof.
  induction l as [|x l IH]; intros sd p l2 sd1 p1 H; [exists sd, p; constructor|]. cbn [app] in H.
  inversion H as [|? ? w c n o l0 ? ? R H0|? ? w s l0 ? ? H0]; subst; apply IH in H0; destruct H0 as (a & b & H0); exists a, b; econstructor; eauto.
Qed.
Lemma own_engine t u lg : with_engine (EDefault t u) lg = filter (fun x => eng_eqb (on t (fst x)) (EDefault t u)) (by_thread t lg).
Proof.
  induction lg as [|[[t' i] o] lg IH]; [reflexivity|]. change ((t', i, o) :: lg) with ([(t', i, o)] ++ lg). rewrite with_app, by_app, filter_app, IH, with_one, by_one. f_equal.
  destruct (Nat.eqb_spec t' t) as [->|Ne].
  - cbn [filter fst]. destruct (eng_eqb (on t i) (EDefault t u)); reflexivity.
  - cbn [filter]. unfold on, engine_of. destruct (place_of i); cbn; try reflexivity. destruct (Nat.eqb_spec t' t); [contradiction|reflexivity].
Qed.
Lemma firstn_S_nth {A} (l : list A) n x : nth_error l n = Some x -> firstn (S n) l = firstn n l ++ [x].
Proof. revert l. induction n as [|n IH]; intros [|y l] H; try discriminate; [injection H as ->; reflexivity|]. cbn [firstn app]. f_equal. apply IH. exact H. Qed.
Theorem C83_own_samples : forall out progs progs' seeds seeds' sch sch' s s' t n x x', not_shared progs -> not_shared progs' ->
  srun out sch (sinit progs seeds) = Ok s -> srun out sch' (sinit progs' seeds') = Ok s' ->
  progs t = progs' t -> (forall i, In i (progs t) -> exists u, place_of i = Here u) -> (forall u, seeds (EDefault t u) = seeds' (EDefault t u)) ->
  nth_error (by_thread t (log s)) n = Some x -> nth_error (by_thread t (log s')) n = Some x' -> x = x'.
Proof.
  intros out progs progs' seeds seeds' sch sch' s s' t n x x' N N' E E' P Hr Sd X1 X2.
  destruct (C83_one_after_the_other out progs seeds sch N) as (s1 & E1 & Q & D). rewrite E in E1. injection E1 as <-.
  destruct (C83_one_after_the_other out progs' seeds' sch' N') as (s2 & E2 & Q' & D'). rewrite E' in E2. injection E2 as <-.
  specialize (Q t). specialize (Q' t). rewrite P in Q.
  set (l := by_thread t (log s)) in *. set (l' := by_thread t (log s')) in *.
  assert (I : forall k, (k <= S n)%nat -> map fst (firstn k l) = map fst (firstn k l')).
  { intros k K. assert (L : (n < length l)%nat) by (apply nth_error_Some; congruence). assert (L' : (n < length l')%nat) by (apply nth_error_Some; congruence).
    rewrite <- !firstn_map. transitivity (firstn k (progs' t)).
    - rewrite <- Q, firstn_app, map_length. replace (k - length l)%nat with 0%nat by lia. rewrite firstn_O, app_nil_r. reflexivity.
    - rewrite <- Q', firstn_app, map_length. replace (k - length l')%nat with 0%nat by lia. rewrite firstn_O, app_nil_r. reflexivity. }
  pose proof (I (S n) (le_n _)) as I1. rewrite (firstn_S_nth _ _ _ X1), (firstn_S_nth _ _ _ X2), !map_app in I1.
  apply app_inj_tail in I1. destruct I1 as [I0 Ix].
  assert (Pl : exists u, place_of (fst x) = Here u).
  { apply Hr. rewrite P, <- Q. apply in_or_app. left. apply in_map. eapply nth_error_In. exact X1. }
  destruct Pl as [u Pl]. assert (On : on t (fst x) = EDefault t u) by (unfold on; rewrite Pl; reflexivity).
  assert (K : forall (m : list (item * outcome sval)), nth_error m n = Some x \/ nth_error m n = Some x' ->
    filter (fun y => eng_eqb (on t (fst y)) (EDefault t u)) (firstn (S n) m) = filter (fun y => eng_eqb (on t (fst y)) (EDefault t u)) (firstn n m) ++ firstn 1 (skipn n m)).
  { intros m Hm. destruct (nth_error m n) as [y|] eqn:Y; [|destruct Hm; discriminate]. rewrite (firstn_S_nth _ _ _ Y), filter_app. f_equal.
    assert (Oy : on t (fst y) = EDefault t u) by (destruct Hm as [[= ->]|[= ->]]; [exact On|rewrite <- Ix; exact On]).
    cbn [filter]. rewrite Oy, eng_eqb_refl. clear - Y. revert m Y. induction n as [|n IH]; intros [|z m] Y; try discriminate; [injection Y as ->; reflexivity|]. apply IH. exact Y. }
  destruct (D (EDefault t u)) as (sd & p & H). destruct (D' (EDefault t u)) as (sd' & p' & H'). rewrite <- Sd in H'.
  rewrite own_engine in H, H'. fold l in H. fold l' in H'.
  rewrite <- (firstn_skipn (S n) l), filter_app in H. rewrite <- (firstn_skipn (S n) l'), filter_app in H'.
  apply done_prefix in H. destruct H as (a & b & H). apply done_prefix in H'. destruct H' as (a' & b' & H').
  assert (Rq : map (fun y => request (fst y)) (filter (fun y => eng_eqb (on t (fst y)) (EDefault t u)) (firstn (S n) l))
             = map (fun y => request (fst y)) (filter (fun y => eng_eqb (on t (fst y)) (EDefault t u)) (firstn (S n) l'))).
  { pose proof (I (S n) (le_n _)) as J. clear - J. revert J. generalize (firstn (S n) l) (firstn (S n) l'). induction l0 as [|[i o] m IH]; intros [|[i' o'] m'] J; try discriminate; [reflexivity|].
    cbn [map fst] in J. injection J as -> J. cbn [filter fst]. destruct (eng_eqb (on t i') (EDefault t u)); cbn [map fst]; [f_equal|]; auto. }
  pose proof (done_det out _ _ _ _ _ H _ _ _ H' Rq) as V. rewrite (K l (or_introl X1)), (K l' (or_intror X2)), !map_app in V.
  assert (F1 : forall (m : list (item * outcome sval)) y, nth_error m n = Some y -> firstn 1 (skipn n m) = [y]).
  { clear. induction n as [|n IH]; intros [|z m] y Y; try discriminate; [injection Y as ->; reflexivity|]. apply IH. exact Y. }
  rewrite (F1 l x X1), (F1 l' x' X2) in V. apply app_inj_tail in V. destruct V as [_ V]. destruct x, x'. cbn [fst snd] in *. congruence.
Qed.
Print Assumptions C83_own_samples.

(** *** the results are what was asked for *)

(** Arguments for which the functions are meant. *)
Definition in_domain (c : scall) : Prop :=
  match c with
  | Canon | Bernoulli _ => True
  | Bernoullis n _ => 0 <= n
  | Uniform end_ => 1 <= end_ < 2 ^ 64
  | Uniforms n end_ => 0 <= n /\ 1 <= end_ < 2 ^ 64
  | Without n end_ => 0 <= n <= end_ /\ end_ < 2 ^ 64 /\ n < 2 ^ 60
  | Discrete w => w <> []
  | Discretes n w => 0 <= n /\ w <> []
  end.
(** A result of the right kind. *)
Definition right_kind (c : scall) (o : outcome sval) : Prop :=
  match c with
  | Canon => exists x, o = Ok (VReal x) /\ unit_double x
  | Bernoulli _ => exists b, o = Ok (VBit b)
  | Bernoullis n _ => exists l, o = Ok (VBits l) /\ Z.of_nat (length l) = n
  | Uniform end_ => exists i, o = Ok (VIdx i) /\ 0 <= i < end_
  | Uniforms n end_ => exists l, o = Ok (VIdxs l) /\ Z.of_nat (length l) = n /\ Forall (fun i => 0 <= i < end_) l
  | Without n end_ => exists l, o = Ok (VIdxs l) /\ Z.of_nat (length l) = n /\ increasing l /\ Forall (fun i => 0 <= i < end_) l
  | Discrete w => exists i, o = Ok (VIdx i) /\ 0 <= i < Z.of_nat (length w)
  | Discretes n w => exists l, o = Ok (VIdxs l) /\ Z.of_nat (length l) = n /\ Forall (fun i => 0 <= i < Z.of_nat (length w)) l
  end.

(** Cases of a call on outputs. *)
Definition settles {A} (P : A -> Prop) (f : list Z -> outcome (A * list Z)) : Prop :=
  forall l, outputs l -> f l = Timeout \/ exists a r, f l = Ok (a, r) /\ P a /\ outputs r.
Lemma settles_canonical : settles unit_double canonical.
Proof.
  intros [|a [|b l]] O; [left; reflexivity|left; reflexivity|]. inversion O as [|? ? A O1]; subst. inversion O1 as [|? ? B O2]; subst.
  destruct (canonical_unit a b l A B) as (c & E & U). right. exists c, l. auto.
Qed.
Lemma settles_draws {A} (P : A -> Prop) d n : settles P d -> settles (fun l => length l = n /\ Forall P l) (draws d n).
Proof.
  intros D. induction n as [|n IH]; intros l O; cbn [draws]; [right; exists [], l; auto|].
  destruct (D l O) as [->|(a & r & -> & Pa & Or)]; [left; reflexivity|]. cbn [bindO fst snd].
  destruct (IH r Or) as [->|(as_ & r2 & -> & [L F] & Or2)]; [left; reflexivity|]. cbn [bindO fst snd]. right. exists (a :: as_), r2. cbn [length]. auto.
Qed.
Lemma settles_bernoulli p : settles (fun _ => True) (bernoulli p).
Proof. intros l O. unfold bernoulli. destruct (settles_canonical l O) as [->|(c & r & -> & _ & Or)]; [left; reflexivity|]. right. cbn. eauto. Qed.
Lemma settles_discrete w : w <> [] -> settles (fun i => 0 <= i < Z.of_nat (length w)) (discrete w).
Proof.
  intros W l O. destruct l as [|a [|b l]].
  3:{ inversion O as [|? ? A O1]; subst. inversion O1 as [|? ? B O2]; subst. destruct (C79_discrete_in_range w a b l W A B) as (i & l' & E & I & L).
      right. exists i, l'. split; [exact E|]. split; [exact I|]. subst l'. destruct (length w =? 1)%nat; auto. }
  all: destruct w as [|x [|y w]]; [congruence| |].
  1, 3: right; eexists; eexists; split; [reflexivity|]; split; [cbn; lia|exact O].
  all: left; unfold discrete; set (cp := cumulative (x :: y :: w)); destruct cp as [|c cp'] eqn:E; [|reflexivity].
  all: exfalso; unfold cp, cumulative in E; destruct (removelast _); discriminate.
Qed.
Lemma settles_uniform end_ : 1 <= end_ < 2 ^ 64 -> settles (fun i => 0 <= i < end_) (uniform_index_sample end_).
Proof.
  intros H l O. destruct (C80_in_range end_ l H O) as [->|(v & p & r & E & V & -> & _)]; [left; reflexivity|]. right. exists v, r.
  apply Forall_app in O. split; [exact E|]. split; [exact V|apply O].
Qed.
(** The loop of samples without replacement on the outputs of a list is the one of Random.v. *)
Lemma wo_list_loop n end_ o : forall fuel k t m acc l vs r,
  (forall i, (i < length l)%nat -> nth i l 0 = o (2 * k + i)%nat) -> Forall (fun x => 0 <= x < 2 ^ 32) l -> wo_list fuel n end_ t m acc l = Ok (vs, r) ->
  exists k', wo_loop fuel (draw_of o) k n end_ t m acc = Ok (vs, k').
Proof.
  induction fuel as [|f IH]; intros k t m acc l vs r N O H; cbn [wo_list wo_loop] in *; destruct (m <? n); try discriminate.
  1, 3: injection H as <- <-; eauto.
  destruct l as [|a [|b l]]; try discriminate. pose proof O as O0. inversion O as [|? ? A O1]; subst. inversion O1 as [|? ? B O2]; subst.
  destruct (canonical_unit a b l A B) as (c & E & U). rewrite E in H. cbn [bindO fst snd] in H.
  assert (Dc : draw_of o k = c).
  { unfold draw_of. pose proof (N 0%nat ltac:(cbn; lia)) as N0. pose proof (N 1%nat ltac:(cbn; lia)) as N1. cbn [nth] in N0, N1.
    rewrite Nat.add_0_r in N0. rewrite <- N0, <- N1. destruct (canonical_unit a b [] A B) as (c' & E' & _). rewrite E'.
    pose proof (answers_canonical) as An. clear - E E' An A B.
    destruct (canonical_val a b l A B) as (c1 & F & _). unfold canonical in *. cbn [next bindO fst snd] in *. congruence. }
  rewrite Dc. assert (N' : forall i, (i < length l)%nat -> nth i l 0 = o (2 * S k + i)%nat).
  { intros i Hi. specialize (N (S (S i)) ltac:(cbn; lia)). cbn [nth] in N. rewrite N. f_equal. lia. }
  destruct (select n end_ t m c); eapply IH; eauto.
Qed.
Lemma wo_loop_more draws n end_ : forall f f' k t m acc r k', wo_loop f draws k n end_ t m acc = Ok (r, k') -> forall r2 k2, wo_loop f' draws k n end_ t m acc = Ok (r2, k2) -> r = r2.
Proof.
  induction f as [|f IH]; intros [|f'] k t m acc r k' H r2 k2 H'; cbn [wo_loop] in *; destruct (m <? n); try discriminate; try congruence.
  destruct (select n end_ t m (draws k)); eauto.
Qed.
Lemma wo_cases n end_ : forall fuel t m acc l, outputs l -> wo_list fuel n end_ t m acc l = Timeout \/ exists vs r, wo_list fuel n end_ t m acc l = Ok (vs, r) /\ outputs r.
Proof.
  induction fuel as [|f IH]; intros t m acc l O; cbn [wo_list]; destruct (m <? n); eauto.
  destruct (settles_canonical l O) as [->|(c & r & -> & _ & Or)]; [left; reflexivity|]. cbn [bindO fst snd]. destruct (select n end_ t m c); auto.
Qed.
Lemma settles_without n end_ : 0 <= n <= end_ -> end_ < 2 ^ 64 -> n < 2 ^ 60 ->
  settles (fun l => Z.of_nat (length l) = n /\ increasing l /\ Forall (fun i => 0 <= i < end_) l) (without n end_).
Proof.
  intros Hn He Hc l O. unfold without. destruct (2 ^ 60 - 1 <? n) eqn:C; [lia|].
  destruct (wo_cases n end_ (S (length l)) 0 0 [] l O) as [->|(vs & r & E & Or)]; [left; reflexivity|]. right. exists vs, r.
  split; [exact E|]. split; [|exact Or]. set (os := fun k => nth k l 0).
  assert (Os : forall k, 0 <= os k < 2 ^ 32).
  { intros k. unfold os. destruct (Nat.lt_ge_cases k (length l)); [|rewrite nth_overflow by assumption; lia].
    unfold outputs in O. rewrite Forall_forall in O. apply O. apply nth_In. assumption. }
  destruct (C79_without_replacement os n end_ Os Hn He Hc) as (vs' & k & G & L & Inc & R & _).
  unfold sample_without_replacement in G. rewrite C in G.
  destruct (wo_list_loop n end_ os (S (length l)) 0 0 0 [] l vs r (fun i _ => eq_refl) O E) as (k' & G').
  rewrite (wo_loop_more _ _ _ _ _ _ _ _ _ _ _ G' _ _ G). split; [exact L|]. split; [exact Inc|]. apply Forall_forall. exact R.
Qed.
Lemma done_in out sd p l sd' p' i o : one_after_the_other out sd p l sd' p' -> In (i, o) l ->
  match i with Sample _ c => exists sd1 p1 n, results_in c (window out sd1 p1 n) o | Seed _ _ => o = Ok VNone end.
Proof.
  intros H. induction H as [|sd p w c n o' l sd' p' R H IH|sd p w s l sd' p' H IH]; intros J; [destruct J| |].
  - destruct J as [[= <- <-]|J]; [exists sd, p, n; exact R|exact (IH J)].
  - destruct J as [[= <- <-]|J]; [reflexivity|exact (IH J)].
Qed.
(** Every sample that any thread has drawn, from any engine with outputs below 2^32 (the default one, by C83_engine), is of the right kind. *)
Theorem C83_right_kind : forall out progs seeds sch s t w c o, not_shared progs -> (forall sd k, 0 <= out sd k < 2 ^ 32) ->
  srun out sch (sinit progs seeds) = Ok s -> In (t, Sample w c, o) (log s) -> in_domain c -> right_kind c o.
Proof.
  intros out progs seeds sch s t w c o N Ro E J Dm.
  destruct (C83_one_after_the_other out progs seeds sch N) as (s1 & E1 & _ & D). rewrite E in E1. injection E1 as <-.
  destruct (D (on t (Sample w c))) as (sd & p & H).
  assert (J' : In (Sample w c, o) (with_engine (on t (Sample w c)) (log s))).
  { unfold with_engine. apply in_map_iff. exists (t, Sample w c, o). split; [reflexivity|]. apply filter_In. split; [exact J|]. apply eng_eqb_refl. }
  destruct (done_in _ _ _ _ _ _ _ _ H J') as (sd1 & p1 & n & R). apply results_iff in R. destruct R as (No & P & _).
  assert (O : outputs (window out sd1 p1 n)) by (apply Forall_forall; intros x Hx; apply in_map_iff in Hx; destruct Hx as (k & <- & _); apply Ro).
  set (l := window out sd1 p1 n) in *. clearbody l.
  assert (G : forall A (Q : A -> Prop) (f : list Z -> outcome (A * list Z)) (h : A -> sval), settles Q f -> perform c l = tag h (f l) -> exists a, o = Ok (h a) /\ Q a).
  { intros A Q f h S1 Ep. rewrite Ep in P. destruct (S1 l O) as [F|(a & r & F & Qa & _)]; rewrite F in P; cbn in P.
    - destruct o; cbn in P; congruence.
    - exists a. split; [|exact Qa]. destruct o; cbn in P; congruence. }
  destruct c; cbn [in_domain right_kind] in *.
  - destruct (G _ _ _ _ settles_canonical eq_refl) as (a & -> & Q). eauto.
  - destruct (G _ _ _ _ (settles_bernoulli p0) eq_refl) as (a & -> & Q). eauto.
  - destruct (G _ _ _ _ (settles_draws _ _ (Z.to_nat n0) (settles_bernoulli p0)) eq_refl) as (a & -> & L & _). exists a. split; [reflexivity|lia].
  - destruct (G _ _ _ _ (settles_uniform end_ Dm) eq_refl) as (a & -> & Q). eauto.
  - destruct (G _ _ _ _ (settles_draws _ _ (Z.to_nat n0) (settles_uniform end_ (proj2 Dm))) eq_refl) as (a & -> & L & F). exists a. split; [reflexivity|]. split; [lia|exact F].
  - destruct Dm as (D1 & D2 & D3). destruct (G _ _ _ _ (settles_without n0 end_ D1 D2 D3) eq_refl) as (a & -> & Q). eauto.
  - destruct (G _ _ _ _ (settles_discrete w0 Dm) eq_refl) as (a & -> & Q). eauto.
  - destruct (G _ _ _ _ (settles_draws _ _ (Z.to_nat n0) (settles_discrete w0 (proj2 Dm))) eq_refl) as (a & -> & L & F). exists a. split; [reflexivity|]. split; [lia|exact F].
Qed.
Print Assumptions C83_right_kind.

(** ** examples and limits *)

(** Thread 0 draws without replacement from its default engine, seeded with 1, and an index from a shared object, with the mutex; thread 1 draws from its own
    default engine, and an index from the shared object. *)
Definition sample_progs (t : nat) : list item :=
  match t with
  | O => [Seed (Here 0) 1; Sample (Here 0) (Without 2 4); Sample (Guarded 7) (Uniform 10)]
  | 1%nat => [Sample (Here 0) Canon; Sample (Guarded 7) (Uniform 10); Sample (Here 0) (Bernoulli (dbl 1))]
  | _ => []
  end.
Definition sample_seeds (e : eng) : Z := match e with EDefault t u => 100 + Z.of_nat t | EObject k => 5489 end.
Lemma sample_not_shared : not_shared sample_progs.
Proof.
  intros k. right. intros [|[|t]] i H E; cbn in H; [| |destruct H]; repeat (destruct H as [<-|H]; [cbn in E; try discriminate; injection E as <-; reflexivity|]); destruct H.
Qed.
(** Steps of the two threads in turn, until both are done: thread 1 gets the shared object first, and thread 0 waits for it. *)
Example C83_ex : exists s, srun mt_output (flat_map (fun _ => [1; 1; 0]%nat) (seq 0 24)) (sinit sample_progs sample_seeds) = Ok s
  /\ todo s 0%nat = [] /\ todo s 1%nat = []
  /\ map (fun x => fst (fst x)) (log s) = [0; 1; 1; 1; 0; 0]%nat
  /\ by_thread 0 (log s) = [(Seed (Here 0) 1, Ok VNone); (Sample (Here 0) (Without 2 4), Ok (VIdxs [2; 3])); (Sample (Guarded 7) (Uniform 10), Ok (VIdx 1))]
  /\ with_engine (EObject 7) (log s) = [(Sample (Guarded 7) (Uniform 10), Ok (VIdx 8)); (Sample (Guarded 7) (Uniform 10), Ok (VIdx 1))].
Proof.
  destruct (C83_one_after_the_other mt_output sample_progs sample_seeds (flat_map (fun _ => [1; 1; 0]%nat) (seq 0 24)) sample_not_shared) as (s & E & _).
  exists s. split; [exact E|].
  assert (V : match srun mt_output (flat_map (fun _ => [1; 1; 0]%nat) (seq 0 24)) (sinit sample_progs sample_seeds) with
              | Ok s => (todo s 0%nat, todo s 1%nat, log s)
              | _ => ([], [], []) end
            = ([], [], [(0%nat, Seed (Here 0) 1, Ok VNone); (1%nat, Sample (Here 0) Canon, Ok (VReal (S754_finite false 4976839549290070 (-53))));
                        (1%nat, Sample (Guarded 7) (Uniform 10), Ok (VIdx 8)); (1%nat, Sample (Here 0) (Bernoulli (dbl 1)), Ok (VBit true));
                        (0%nat, Sample (Here 0) (Without 2 4), Ok (VIdxs [2; 3])); (0%nat, Sample (Guarded 7) (Uniform 10), Ok (VIdx 1))])) by (vm_compute; reflexivity).
  rewrite E in V. injection V as V1 V2 V3. rewrite V1, V2, V3. repeat split.
Qed.

(** Two threads that use one engine object without a mutex: a data race. *)
Theorem C83_shared_refuted : forall out seeds, exists progs sch, (forall t i, In i (progs t) -> t < 2)%nat /\ srun out sch (sinit progs seeds) = UB.
Proof.
  intros out seeds. exists (fun t => match t with 0%nat | 1%nat => [Sample (Given 0) Canon] | _ => [] end), [0; 1]%nat. split; [|reflexivity].
  intros [|[|t]] i H; try lia. destruct H.
Qed.
Print Assumptions C83_shared_refuted.

(** The engine is static in a header: seeding it in one translation unit does not make the samples of another one reproducible, in the same thread. *)
Theorem C83_other_unit_refuted : exists prog seeds seeds' sch s s',
  srun mt_output sch (sinit (fun t => match t with O => prog | _ => [] end) seeds) = Ok s
  /\ srun mt_output sch (sinit (fun t => match t with O => prog | _ => [] end) seeds') = Ok s'
  /\ hd_error prog = Some (Seed (Here 0) 1)
  /\ map snd (log s) = [Ok VNone; Ok (VIdx 41)] /\ map snd (log s') = [Ok VNone; Ok (VIdx 43)].
Proof.
  set (prog := [Seed (Here 0) 1; Sample (Here 1) (Uniform 100)]). set (progs := fun t : nat => match t with O => prog | _ => [] end).
  assert (N : not_shared progs).
  { intros k. left. intros [|t] t' i i' H H' E; [|destruct H]. repeat (destruct H as [<-|H]; [discriminate|]). destruct H. }
  destruct (C83_one_after_the_other mt_output progs (fun _ => 1) [0; 0; 0; 0; 0]%nat N) as (s & E & _).
  destruct (C83_one_after_the_other mt_output progs (fun _ => 2) [0; 0; 0; 0; 0]%nat N) as (s' & E' & _).
  exists prog, (fun _ => 1), (fun _ => 2), [0; 0; 0; 0; 0]%nat, s, s'. split; [exact E|]. split; [exact E'|]. split; [reflexivity|].
  split; [assert (V : match srun mt_output [0; 0; 0; 0; 0]%nat (sinit progs (fun _ => 1)) with Ok s => map snd (log s) | _ => [] end = [Ok VNone; Ok (VIdx 41)]) by (vm_compute; reflexivity); rewrite E in V; exact V|].
  assert (V : match srun mt_output [0; 0; 0; 0; 0]%nat (sinit progs (fun _ => 2)) with Ok s => map snd (log s) | _ => [] end = [Ok VNone; Ok (VIdx 43)]) by (vm_compute; reflexivity). rewrite E' in V; exact V.
Qed.
Print Assumptions C83_other_unit_refuted.
