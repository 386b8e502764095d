(** * SampleThreadsProofs: calls read their outputs in order; threads with their own engines. *)

From Coq Require Import ZArith List Bool Lia Floats.SpecFloat.
From Verif Require Import Base Coerce Random Stats Dist SampleThreads SampleThreadsSpec.
Import ListNotations.
Open Scope Z_scope.

(** *** a call draws what it needs and leaves the rest *)
Definition answer {A} (o : outcome A) (r : list Z) : outcome (A * list Z) := let* a := o in Ok (a, r).
Definition answers {A} (f : list Z -> outcome (A * list Z)) : Prop :=
  forall l, f l = Timeout \/ exists u r o, l = u ++ r /\ o <> Timeout /\ forall r', f (u ++ r') = answer o r'.

Lemma answers_ret {A} (a : A) : answers (fun l => Ok (a, l)).
Proof. intros l. right. exists [], l, (Ok a). repeat split; discriminate. Qed.
Lemma answers_const {A} (o : outcome A) : answers (fun l => answer o l).
Proof.
  intros l. destruct o.
  - right. exists [], l, (Ok a). repeat split; discriminate.
  - right. exists [], l, (Throw e). repeat split; discriminate.
  - right. exists [], l, Abort. repeat split; discriminate.
  - right. exists [], l, UB. repeat split; discriminate.
  - left. reflexivity.
Qed.
Lemma answers_ext {A} (f g : list Z -> outcome (A * list Z)) : (forall l, f l = g l) -> answers f -> answers g.
Proof.
  intros E H l. rewrite <- E. destruct (H l) as [|(u & r & o & -> & N & D)]; [left; auto|]. right.
  exists u, r, o. repeat split; auto. intros r'. rewrite <- E. apply D.
Qed.
Lemma answers_bind {A B} (f : list Z -> outcome (A * list Z)) (g : A -> list Z -> outcome (B * list Z)) :
  answers f -> (forall a, answers (g a)) -> answers (fun l => let* r := f l in g (fst r) (snd r)).
Proof.
  intros F G l. destruct (F l) as [->|(u & r & o & -> & N & D)]; [left; reflexivity|].
  destruct o as [a|e| | |]; [|right; exists u, r, (Throw e)|right; exists u, r, Abort|right; exists u, r, UB|congruence].
  2-4: (repeat split; [discriminate|intros r'; rewrite D; reflexivity]).
  rewrite D. cbn [answer bindO fst snd]. destruct (G a r) as [->|(u' & r2 & o & -> & N' & D')]; [left; reflexivity|].
  right. exists (u ++ u'), r2, o. repeat split; [apply app_assoc|auto|]. intros r'. rewrite <- app_assoc, D. cbn. apply D'.
Qed.
Lemma answers_next : answers next.
Proof. intros [|x l]; [left; reflexivity|]. right. exists [x], l, (Ok x). repeat split; discriminate. Qed.
Lemma answers_tag {A} (h : A -> sval) f : answers f -> answers (fun l => tag h (f l)).
Proof. intros F. unfold tag. apply (answers_bind f (fun a l => Ok (h a, l)) F). intros a. apply answers_ret. Qed.

Lemma answers_canonical : answers canonical.
Proof.
  unfold canonical. cbv zeta.
  apply (answers_bind next (fun a l => let* r2 := next l in Ok (if SFleb (dbl 1) (fdiv (fadd (fadd (dbl 0) (fmul (dbl a) (dbl 1)))
    (fmul (dbl (fst r2)) (fmul (dbl 1) (dbl (2 ^ 32))))) (fmul (fmul (dbl 1) (dbl (2 ^ 32))) (dbl (2 ^ 32)))) then below_one else
     fdiv (fadd (fadd (dbl 0) (fmul (dbl a) (dbl 1)))
    (fmul (dbl (fst r2)) (fmul (dbl 1) (dbl (2 ^ 32))))) (fmul (fmul (dbl 1) (dbl (2 ^ 32))) (dbl (2 ^ 32))), snd r2)) answers_next).
  intros a.
  apply (answers_bind next (fun b l => Ok (if SFleb (dbl 1) (fdiv (fadd (fadd (dbl 0) (fmul (dbl a) (dbl 1)))
    (fmul (dbl b) (fmul (dbl 1) (dbl (2 ^ 32))))) (fmul (fmul (dbl 1) (dbl (2 ^ 32))) (dbl (2 ^ 32)))) then below_one else
     fdiv (fadd (fadd (dbl 0) (fmul (dbl a) (dbl 1)))
    (fmul (dbl b) (fmul (dbl 1) (dbl (2 ^ 32))))) (fmul (fmul (dbl 1) (dbl (2 ^ 32))) (dbl (2 ^ 32))), l)) answers_next).
  intros b. apply answers_ret.
Qed.
Lemma answers_draws {A} (d : list Z -> outcome (A * list Z)) n : answers d -> answers (draws d n).
Proof.
  intros D. induction n as [|n IH]; cbn [draws]; [apply answers_ret|].
  apply (answers_bind d (fun a l => let* rs := draws d n l in Ok (a :: fst rs, snd rs)) D). intros a.
  apply (answers_bind (draws d n) (fun b l => Ok (a :: b, l)) IH). intros b. apply answers_ret.
Qed.
Lemma answers_bernoulli p : answers (bernoulli p).
Proof.
  unfold bernoulli. apply (answers_bind canonical (fun a l => Ok (SFltb (fsub a (dbl 0)) (fmul p (fsub (dbl 1) (dbl 0))), l)) answers_canonical).
  intros a. apply answers_ret.
Qed.
Lemma answers_discrete w : answers (discrete w).
Proof.
  unfold discrete. destruct (cumulative w) as [|c cp] eqn:E; [apply answers_ret|].
  apply (answers_bind canonical (fun a l => let* i := lower_bound (S (length (c :: cp))) (c :: cp) a 0 (length (c :: cp)) in Ok (Z.of_nat i, l)) answers_canonical).
  intros a. set (o := lower_bound _ _ _ _ _).
  apply (answers_ext (fun l => answer (let* i := o in Ok (Z.of_nat i)) l)); [|apply answers_const].
  intros l. unfold answer. destruct o; reflexivity.
Qed.
Lemma answers_nd_while R th : forall p, answers (nd_while R th p).
Proof.
  assert (H : forall l p, nd_while R th p l = Timeout \/ exists u r o, l = u ++ r /\ o <> Timeout /\ forall r', nd_while R th p (u ++ r') = answer o r').
  { induction l as [|x l IH]; intros p.
    - cbn [nd_while]. destruct (p mod 2 ^ 32 <? th) eqn:E; [left; reflexivity|]. right. exists [], [], (Ok (p / 2 ^ 32)).
      repeat split; [discriminate|]. intros [|y r']; cbn [nd_while app]; rewrite E; reflexivity.
    - cbn [nd_while]. destruct (p mod 2 ^ 32 <? th) eqn:E.
      + destruct (IH (x * R)) as [->|(u & r & o & -> & N & D)]; [left; reflexivity|]. right. exists (x :: u), r, o. repeat split; auto.
        intros r'. cbn [nd_while app]. rewrite E. apply D.
      + right. exists [], (x :: l), (Ok (p / 2 ^ 32)). repeat split; [discriminate|]. intros [|y r']; cbn [nd_while app]; rewrite E; reflexivity. }
  intros p l. apply H.
Qed.
Lemma answers_nd R : answers (nd R).
Proof.
  unfold nd. apply (answers_bind next (fun a l => if (a * R) mod 2 ^ 32 <? R then nd_while R ((2 ^ 32 - R) mod R) (a * R) l else Ok (a * R / 2 ^ 32, l)) answers_next).
  intros a. destruct ((a * R) mod 2 ^ 32 <? R); [apply answers_nd_while|apply answers_ret].
Qed.
Lemma answers_small b : answers (small b).
Proof. unfold small. destruct (b <? 2 ^ 32 - 1); [apply answers_nd|apply answers_next]. Qed.

(** Loops whose fuel is the number of outputs. *)
Definition answers_fuel {A} (f : nat -> list Z -> outcome (A * list Z)) : Prop :=
  forall fuel l, (length l < fuel)%nat -> f fuel l = Timeout \/ exists u r o, l = u ++ r /\ o <> Timeout
    /\ forall fuel' r', (length (u ++ r') < fuel')%nat -> f fuel' (u ++ r') = answer o r'.
Lemma fuel_answers {A} (f : nat -> list Z -> outcome (A * list Z)) : answers_fuel f -> answers (fun l => f (S (length l)) l).
Proof.
  intros F l. destruct (F (S (length l)) l) as [|(u & r & o & -> & N & D)]; [lia|left; auto|]. right.
  exists u, r, o. repeat split; auto.
Qed.
(** One round of [large]. *)
Definition rnd (b : Z) (l : list Z) : outcome ((Z * Z) * list Z) :=
  let* h := small (b / 2 ^ 32) l in let* r := next (snd h) in Ok ((fst h, fst r), snd r).
Lemma answers_rnd b : answers (rnd b).
Proof.
  unfold rnd. apply (answers_bind (small (b / 2 ^ 32)) (fun a l => let* r := next l in Ok ((a, fst r), snd r)) (answers_small _)).
  intros a. apply (answers_bind next (fun x l => Ok ((a, x), l)) answers_next). intros x. apply answers_ret.
Qed.
Lemma large_rnd f b l : large (S f) b l = let* r := rnd b l in
  let tmp := w64 (2 ^ 32 * fst (fst r)) in let ret := w64 (tmp + snd (fst r)) in
  if (b <? ret) || (ret <? tmp) then large f b (snd r) else Ok (ret, snd r).
Proof. unfold rnd. cbn [large]. destruct (small (b / 2 ^ 32) l) as [[h l1]| | | |]; cbn [bindO fst snd]; [|reflexivity..]. destruct (next l1) as [[x l2]| | | |]; reflexivity. Qed.
Lemma next_used {A} (f : list Z -> outcome (A * list Z)) u a : (forall r', f (u ++ r') = answer (Ok a) r') -> f [] = Timeout -> (0 < length u)%nat.
Proof. intros D E. destruct u; [|cbn; lia]. specialize (D []). cbn [app] in D. rewrite E in D. discriminate. Qed.
Lemma small_empty b : small b [] = Timeout.
Proof. unfold small. destruct (b <? 2 ^ 32 - 1); reflexivity. Qed.
Lemma large_answers b : answers_fuel (fun f l => large f b l).
Proof.
  intros fuel. induction fuel as [|f IH]; intros l L; [lia|].
  rewrite large_rnd. destruct (answers_rnd b l) as [->|(u & r & o & -> & N & D)]; [left; reflexivity|].
  destruct o as [[h x]|e| | |]; [|right; exists u, r, (Throw e)|right; exists u, r, Abort|right; exists u, r, UB|congruence].
  2-4: (repeat split; [discriminate|intros [|f'] r' L'; [lia|rewrite large_rnd, D; reflexivity]]).
  assert (U : (0 < length u)%nat).
  { apply (next_used (rnd b) u (h, x)); [exact D|]. unfold rnd. rewrite small_empty. reflexivity. }
  rewrite D. cbn [answer bindO fst snd]. cbv zeta. set (tmp := w64 (2 ^ 32 * h)) in *. set (ret := w64 (tmp + x)) in *.
  destruct ((b <? ret) || (ret <? tmp)) eqn:E.
  - destruct (IH r) as [->|(u' & r2 & o & -> & N' & D')]; [rewrite app_length in L; lia|left; reflexivity|].
    right. exists (u ++ u'), r2, o. repeat split; [apply app_assoc|auto|]. intros [|f'] r' L'; [lia|].
    rewrite <- app_assoc in *. rewrite large_rnd, D. cbn [answer bindO fst snd]. cbv zeta. fold tmp. fold ret. rewrite E. apply D'.
    rewrite app_length in L'. lia.
  - right. exists u, r, (Ok ret). repeat split; [discriminate|]. intros [|f'] r' L'; [lia|].
    rewrite large_rnd, D. cbn [answer bindO fst snd]. cbv zeta. fold tmp. fold ret. rewrite E. reflexivity.
Qed.
Lemma answers_uniform b : answers (uniform_int b).
Proof. unfold uniform_int. destruct (b <=? 2 ^ 32 - 1); [apply answers_small|apply (fuel_answers (fun f l => large f b l)), large_answers]. Qed.

Lemma canonical_empty : canonical [] = Timeout. Proof. reflexivity. Qed.
Lemma wo_answers n end_ : forall fuel t m acc l, (length l < fuel)%nat ->
  wo_list fuel n end_ t m acc l = Timeout \/ exists u r o, l = u ++ r /\ o <> Timeout
    /\ forall fuel' r', (length (u ++ r') < fuel')%nat -> wo_list fuel' n end_ t m acc (u ++ r') = answer o r'.
Proof.
  induction fuel as [|f IH]; intros t m acc l L; [lia|]. cbn [wo_list]. destruct (m <? n) eqn:M.
  2:{ right. exists [], l, (Ok acc). repeat split; [discriminate|]. intros [|f'] r' L'; [lia|]. cbn [wo_list]. rewrite M. reflexivity. }
  destruct (answers_canonical l) as [->|(u & r & o & -> & N & D)]; [left; reflexivity|].
  destruct o as [c|e| | |]; [|right; exists u, r, (Throw e)|right; exists u, r, Abort|right; exists u, r, UB|congruence].
  2-4: (repeat split; [discriminate|intros [|f'] r' L'; [lia|cbn [wo_list]; rewrite M, D; reflexivity]]).
  pose proof (next_used canonical u c D canonical_empty) as U.
  rewrite D. cbn [answer bindO fst snd]. rewrite app_length in L. destruct (select n end_ t m c) eqn:S1.
  - destruct (IH (w64 (t + 1)) (m + 1) (acc ++ [t]) r) as [->|(u' & r2 & o & -> & N' & D')]; [lia|left; reflexivity|].
    right. exists (u ++ u'), r2, o. repeat split; [apply app_assoc|auto|]. intros [|f'] r' L'; [lia|].
    rewrite <- app_assoc in *. cbn [wo_list]. rewrite M, D. cbn [answer bindO fst snd]. rewrite S1. apply D'. rewrite app_length in L'. lia.
  - destruct (IH (w64 (t + 1)) m acc r) as [->|(u' & r2 & o & -> & N' & D')]; [lia|left; reflexivity|].
    right. exists (u ++ u'), r2, o. repeat split; [apply app_assoc|auto|]. intros [|f'] r' L'; [lia|].
    rewrite <- app_assoc in *. cbn [wo_list]. rewrite M, D. cbn [answer bindO fst snd]. rewrite S1. apply D'. rewrite app_length in L'. lia.
Qed.
Lemma answers_without n end_ : answers (without n end_).
Proof.
  unfold without. destruct (2 ^ 60 - 1 <? n).
  - exact (answers_const (Throw LogicError)).
  - apply (fuel_answers (fun f l => wo_list f n end_ 0 0 [] l)). intros f l. apply wo_answers.
Qed.
Theorem perform_answers c : answers (perform c).
Proof.
  destruct c; cbn [perform]; apply answers_tag.
  - apply answers_canonical.
  - apply answers_bernoulli.
  - apply answers_draws, answers_bernoulli.
  - apply answers_uniform.
  - apply answers_draws, answers_uniform.
  - apply answers_without.
  - apply answers_discrete.
  - apply answers_draws, answers_discrete.
Qed.

(** *** results *)
Lemma value_answer (o : outcome sval) r : value_of (answer o r) = o.
Proof. destruct o; reflexivity. Qed.
Lemma answer_Timeout (o : outcome sval) r : o <> Timeout -> answer o r <> Timeout.
Proof. destruct o; cbn; congruence. Qed.
Lemma results_iff c l o : results_in c l o <-> o <> Timeout /\ perform c l = answer o [] /\ forall m, (m < length l)%nat -> perform c (firstn m l) = Timeout.
Proof. unfold results_in. destruct o; cbn; intuition congruence. Qed.
Lemma answered c l : perform c l <> Timeout -> (forall m, (m < length l)%nat -> perform c (firstn m l) = Timeout) ->
  results_in c l (value_of (perform c l)).
Proof.
  intros N M. destruct (perform_answers c l) as [|(u & r & o & -> & No & D)]; [congruence|].
  destruct r as [|x r].
  - rewrite app_nil_r in *. pose proof (D []) as E. rewrite app_nil_r in E. rewrite E, value_answer. apply results_iff. auto.
  - exfalso. pose proof (M (length u)) as E. rewrite app_length in E. cbn [length] in E. specialize (E ltac:(lia)).
    rewrite firstn_app, Nat.sub_diag, firstn_all, firstn_O in E. rewrite D in E. exact (answer_Timeout o [] No E).
Qed.
Lemma results_more c l o r : results_in c l o -> perform c (l ++ r) = answer o r.
Proof.
  intros H. apply results_iff in H. destruct H as (N & E & M).
  destruct (perform_answers c l) as [|(u & r1 & o1 & -> & No & D)]; [pose proof (answer_Timeout o [] N); congruence|].
  destruct r1 as [|x r1].
  - rewrite app_nil_r in *. pose proof (D []) as E'. rewrite app_nil_r, E in E'. rewrite D. f_equal.
    rewrite <- (value_answer o []), E', value_answer. reflexivity.
  - exfalso. pose proof (M (length u)) as F. rewrite app_length in F. cbn [length] in F. specialize (F ltac:(lia)).
    rewrite firstn_app, Nat.sub_diag, firstn_all, firstn_O in F. rewrite D in F. exact (answer_Timeout o1 [] No F).
Qed.

Section Threads.
Variable out : Z -> nat -> Z.
Notation window := (window out).
Lemma window_length sd p n : length (window sd p n) = n.
Proof. unfold SampleThreadsSpec.window. rewrite map_length, seq_length. reflexivity. Qed.
Lemma window_S sd p n : window sd p (S n) = window sd p n ++ [out sd (p + n)].
Proof. unfold SampleThreadsSpec.window. rewrite seq_S, map_app. reflexivity. Qed.
Lemma window_app sd p n m : window sd p (n + m) = window sd p n ++ window sd (p + n) m.
Proof. unfold SampleThreadsSpec.window. rewrite seq_app, map_app. reflexivity. Qed.
Lemma window_firstn sd p n m : (m <= n)%nat -> firstn m (window sd p n) = window sd p m.
Proof.
  intros H. replace n with (m + (n - m))%nat by lia. rewrite window_app, firstn_app, window_length, Nat.sub_diag, firstn_O, app_nil_r.
  rewrite <- (window_length sd p m) at 1. apply firstn_all.
Qed.
Lemma results_unique c sd p n n' o o' : results_in c (window sd p n) o -> results_in c (window sd p n') o' -> n = n' /\ o = o'.
Proof.
  intros H H'. apply results_iff in H, H'. destruct H as (N & E & M), H' as (N' & E' & M').
  rewrite window_length in M, M'. pose proof (answer_Timeout o [] N). pose proof (answer_Timeout o' [] N').
  destruct (Nat.lt_trichotomy n n') as [L|[L|L]].
  - exfalso. specialize (M' n L). rewrite window_firstn in M' by lia. congruence.
  - split; [exact L|]. subst n'. rewrite E in E'. rewrite <- (value_answer o []), E', value_answer. reflexivity.
  - exfalso. specialize (M n' L). rewrite window_firstn in M by lia. congruence.
Qed.

Notation done := (one_after_the_other out).
Lemma done_app sd p l sd' p' l' sd2 p2 : done sd p l sd' p' -> done sd' p' l' sd2 p2 -> done sd p (l ++ l') sd2 p2.
Proof. intros H H'. induction H; cbn [app]; auto; econstructor; eauto. Qed.

Lemma eng_eqb_spec a b : eng_eqb a b = true <-> a = b.
Proof.
  destruct a, b; cbn; try (split; discriminate).
  - rewrite andb_true_iff, !Nat.eqb_eq. split; [intros [-> ->]; reflexivity|intros [= -> ->]; auto].
  - rewrite Nat.eqb_eq. split; congruence.
Qed.
Lemma eng_eqb_refl a : eng_eqb a a = true. Proof. apply eng_eqb_spec. reflexivity. Qed.
Lemma eng_eqb_ne a b : a <> b -> eng_eqb a b = false.
Proof. intros H. destruct (eng_eqb a b) eqn:E; [apply eng_eqb_spec in E; contradiction|reflexivity]. Qed.
Lemma updE_eq {A} (f : eng -> A) e x : updE f e x e = x. Proof. unfold updE. rewrite eng_eqb_refl. reflexivity. Qed.
Lemma updE_ne {A} (f : eng -> A) e e' x : e' <> e -> updE f e x e' = f e'. Proof. intros H. unfold updE. rewrite eng_eqb_ne; auto. Qed.
Lemma upd1_eq {A} (f : nat -> A) t x : upd1 f t x t = x. Proof. unfold upd1. rewrite Nat.eqb_refl. reflexivity. Qed.
Lemma upd1_ne {A} (f : nat -> A) t u x : u <> t -> upd1 f t x u = f u.
Proof. intros H. unfold upd1. destruct (Nat.eqb_spec u t); [contradiction|reflexivity]. Qed.

Lemma with_app e l l' : with_engine e (l ++ l') = with_engine e l ++ with_engine e l'.
Proof. unfold with_engine. rewrite filter_app, map_app. reflexivity. Qed.
Lemma by_app t l l' : by_thread t (l ++ l') = by_thread t l ++ by_thread t l'.
Proof. unfold by_thread. rewrite filter_app, map_app. reflexivity. Qed.
Lemma with_one e t i o : with_engine e [(t, i, o)] = if eng_eqb (on t i) e then [(i, o)] else [].
Proof. unfold with_engine. cbn [filter fst snd]. destruct (eng_eqb (on t i) e); reflexivity. Qed.
Lemma by_one u t i o : by_thread u [(t, i, o)] = if Nat.eqb t u then [(i, o)] else [].
Proof. unfold by_thread. cbn [filter fst snd]. destruct (Nat.eqb t u); reflexivity. Qed.

(** *** the invariant *)
Variable progs : nat -> list item.
Variable seeds : eng -> Z.
Hypothesis Safe : not_shared progs.

(** Thread [t] may use the engine of its current item: it holds the mutex if there is one. *)
Definition ready (s : sst) (t : nat) (i : item) : Prop :=
  hd_error (todo s t) = Some i /\ forall k, place_of i = Guarded k -> lock s k = Some t.
Definition items (l : list (item * outcome sval)) : list item := map fst l.

Record inv (s : sst) : Prop := Inv {
  i_prog : forall t, items (by_thread t (log s)) ++ todo s t = progs t;
  i_drawn : forall t, drawn s t <> [] -> exists i, ready s t i;
  i_busy : forall e t, busy s e = Some t -> exists i, ready s t i /\ on t i = e;
  i_lock : forall k t, lock s k = Some t -> exists i, hd_error (todo s t) = Some i /\ place_of i = Guarded k;
  i_min : forall t i w c, todo s t = i :: w -> (exists pl, i = Sample pl c) -> forall m, (m < length (drawn s t))%nat -> perform c (firstn m (drawn s t)) = Timeout;
  i_inside : forall e t w c r, busy s e = Some t -> todo s t = Sample w c :: r -> perform c (drawn s t) = Timeout;
  i_seed : forall t w s' r, todo s t = Seed w s' :: r -> drawn s t = [];
  i_eng : forall e, exists sd p, done (seeds e) 0 (with_engine e (log s)) sd p
      /\ ((exists t i, ready s t i /\ on t i = e /\ drawn s t = window sd p (length (drawn s t)) /\ engs s e = (sd, (p + length (drawn s t))%nat))
          \/ ((forall t i, hd_error (todo s t) = Some i -> on t i = e -> drawn s t = []) /\ engs s e = (sd, p)))
}.

Lemma in_prog s t i : inv s -> hd_error (todo s t) = Some i -> In i (progs t).
Proof.
  intros I H. rewrite <- (i_prog s I t). apply in_or_app. right. destruct (todo s t); [discriminate|]. injection H as ->. left. reflexivity.
Qed.
(** Two threads that may use the same engine are the same. *)
Lemma exclusive s t t' i i' : inv s -> ready s t i -> ready s t' i' -> on t i = on t' i' -> t = t'.
Proof.
  intros I [H L] [H' L'] E. pose proof (in_prog s t i I H) as P. pose proof (in_prog s t' i' I H') as P'.
  destruct (on t i) as [a u|k] eqn:O.
  - unfold on, engine_of in O, E. destruct (place_of i), (place_of i'); congruence.
  - destruct (Safe k) as [S1|S1]; [exact (S1 t t' i i' P P' O (eq_sym E))|].
    pose proof (S1 t i P O) as G. pose proof (S1 t' i' P' (eq_sym E)) as G'. specialize (L k G). specialize (L' k G'). congruence.
Qed.
Lemma inv_init : inv (sinit progs seeds).
Proof.
  constructor; cbn; intros; try congruence; try lia.
  exists (seeds e), 0%nat. split; [constructor|]. right. split; auto.
Qed.

Lemma unlocked_ready s t i rest : todo s t = i :: rest -> unlocked t i s = false -> ready s t i.
Proof.
  intros T U. split; [rewrite T; reflexivity|]. intros k P. unfold unlocked in U. rewrite P in U.
  destruct (lock s k) as [u|]; [|discriminate]. destruct (Nat.eqb_spec u t); [subst; reflexivity|discriminate].
Qed.
(** The engine of a thread that may use it. *)
Lemma engine_at s t i : inv s -> ready s t i -> exists sd p, done (seeds (on t i)) 0 (with_engine (on t i) (log s)) sd p
  /\ drawn s t = window sd p (length (drawn s t)) /\ engs s (on t i) = (sd, (p + length (drawn s t))%nat).
Proof.
  intros I R. destruct (i_eng s I (on t i)) as (sd & p & D & [(t' & i' & R' & E & W & G)|[N G]]); exists sd, p; split; auto.
  - pose proof (exclusive s t' t i' i I R' R E). subst t'. auto.
  - pose proof (N t i (proj1 R) eq_refl) as Z. rewrite Z. cbn [length]. rewrite Nat.add_0_r. auto.
Qed.

Lemma inv_lock s t i rest k : inv s -> todo s t = i :: rest -> place_of i = Guarded k -> lock s k = None ->
  inv (Sst (todo s) (drawn s) (engs s) (busy s) (upd1 (lock s) k (Some t)) (log s)).
Proof.
  intros I T P L.
  assert (M : forall u j, ready s u j -> ready (Sst (todo s) (drawn s) (engs s) (busy s) (upd1 (lock s) k (Some t)) (log s)) u j).
  { intros u j [H K]. split; [exact H|]. intros k' P'. specialize (K k' P'). cbn [lock]. rewrite upd1_ne; [exact K|]. intros ->. congruence. }
  destruct I as [J1 J2 J3 J4 J5 J6 J7 J8]. constructor; cbn [todo drawn engs busy lock log]; auto.
  - intros u N. destruct (J2 u N) as (j & R). eauto.
  - intros e u B. destruct (J3 e u B) as (j & R & O). eauto.
  - intros k' u B. unfold upd1 in B. destruct (Nat.eqb_spec k' k) as [->|]; [|eauto]. injection B as <-. exists i. rewrite T. auto.
  - intros e. destruct (J8 e) as (sd & p & D & [(u & j & R & E & W & G)|[N G]]); exists sd, p; split; auto.
    left. exists u, j. auto.
Qed.
Lemma inv_begin s t i rest : inv s -> todo s t = i :: rest -> ready s t i -> busy s (on t i) = None ->
  (forall w c, i = Sample w c -> perform c (drawn s t) = Timeout) ->
  inv (Sst (todo s) (drawn s) (engs s) (updE (busy s) (on t i) (Some t)) (lock s) (log s)).
Proof.
  intros I T R B Q. destruct I as [J1 J2 J3 J4 J5 J6 J7 J8]. constructor; cbn [todo drawn engs busy lock log]; auto.
  - intros e u H. unfold updE in H. destruct (eng_eqb e (on t i)) eqn:E; [|exact (J3 e u H)]. injection H as <-. apply eng_eqb_spec in E. exists i. split; auto.
  - intros e u w c r H T'. unfold updE in H. destruct (eng_eqb e (on t i)) eqn:E; [|exact (J6 e u w c r H T')]. injection H as <-.
    rewrite T in T'. injection T' as -> ->. eauto.
Qed.
(** A thread never finds its engine in use by another one. *)
Lemma not_busy s t i : inv s -> ready s t i -> forall u, busy s (on t i) = Some u -> u = t.
Proof. intros I R u B. destruct (i_busy s I _ _ B) as (j & R' & E). exact (exclusive s u t j i I R' R E). Qed.

Lemma inv_draw s t w c rest sd p : inv s -> todo s t = Sample w c :: rest -> ready s t (Sample w c) ->
  busy s (on t (Sample w c)) = Some t -> engs s (on t (Sample w c)) = (sd, p) ->
  inv (Sst (todo s) (upd1 (drawn s) t (drawn s t ++ [out sd p])) (updE (engs s) (on t (Sample w c)) (sd, S p))
        (updE (busy s) (on t (Sample w c)) None) (lock s) (log s)).
Proof.
  intros I T R B G. destruct (engine_at s t _ I R) as (sd0 & p0 & D & W & G'). rewrite G in G'. injection G' as <- Ep.
  pose proof (i_inside s I _ _ _ _ _ B T) as TO. set (e := on t (Sample w c)) in *.
  assert (Ex : forall u j, ready s u j -> on u j = e -> u = t) by (intros u j R' O; exact (exclusive s u t j _ I R' R O)).
  pose proof I as [J1 J2 J3 J4 J5 J6 J7 J8]. constructor; cbn [todo drawn engs busy lock log]; auto.
  - intros u N. destruct (Nat.eq_dec u t) as [->|Ne]; [exists (Sample w c); exact R|]. rewrite upd1_ne in N by auto. exact (J2 u N).
  - intros e' u H. unfold updE in H. destruct (eng_eqb e' e) eqn:E; [discriminate|]. exact (J3 e' u H).
  - intros u j r c' T' [pl ->] m. destruct (Nat.eq_dec u t) as [->|Ne].
    + rewrite upd1_eq, app_length. cbn [length]. intros L. rewrite T in T'. injection T' as -> -> ->.
      destruct (Nat.eq_dec m (length (drawn s t))) as [->|].
      * rewrite firstn_app, Nat.sub_diag, firstn_all, firstn_O, app_nil_r. exact TO.
      * rewrite firstn_app. replace (m - length (drawn s t))%nat with 0%nat by lia. rewrite firstn_O, app_nil_r.
        apply (J5 t _ _ c' T); [eauto|lia].
    + rewrite upd1_ne by auto. apply (J5 u _ _ c' T'). eauto.
  - intros e' u w' c' r H T'. unfold updE in H. destruct (eng_eqb e' e) eqn:E; [discriminate|].
    destruct (Nat.eq_dec u t) as [->|Ne].
    + exfalso. destruct (J3 e' t H) as (j & [Hj _] & O). rewrite T in Hj. injection Hj as <-. fold e in O. subst e'. rewrite eng_eqb_refl in E. discriminate.
    + rewrite upd1_ne by auto. exact (J6 e' u w' c' r H T').
  - intros u w' s' r T'. destruct (Nat.eq_dec u t) as [->|Ne]; [congruence|]. rewrite upd1_ne by auto. exact (J7 u w' s' r T').
  - intros e'. destruct (eng_eqb e' e) eqn:E.
    + apply eng_eqb_spec in E. subst e'. exists sd, p0. split; [exact D|]. left. exists t, (Sample w c). split; [exact R|]. split; [reflexivity|].
      rewrite upd1_eq, updE_eq, app_length. cbn [length]. replace (length (drawn s t) + 1)%nat with (S (length (drawn s t))) by lia.
      rewrite window_S, <- W, Ep. split; [reflexivity|]. f_equal. lia.
    + assert (Ne : e' <> e) by (intros ->; rewrite eng_eqb_refl in E; discriminate). rewrite updE_ne by auto.
      destruct (J8 e') as (sd1 & p1 & D1 & [(u & j & R1 & E1 & W1 & G1)|[N1 G1]]); exists sd1, p1; split; auto.
      * left. exists u, j. assert (u <> t) by (intros ->; destruct R1 as [Hj _]; rewrite T in Hj; injection Hj as <-; fold e in E1; congruence).
        rewrite upd1_ne by auto. auto.
      * right. split; [|exact G1]. intros u j Hj O. destruct (Nat.eq_dec u t) as [->|Nt].
        -- rewrite T in Hj. injection Hj as <-. fold e in O. congruence.
        -- rewrite upd1_ne by auto. eauto.
Qed.

(** The end of an item: [eg] and [bs] are the engines and the accesses after it. *)
Lemma inv_finish s t i rest o eg bs : inv s -> todo s t = i :: rest -> ready s t i ->
  (forall e, e <> on t i -> eg e = engs s e /\ bs e = busy s e) -> bs (on t i) = None ->
  (exists sd p, done (seeds (on t i)) 0 (with_engine (on t i) (log s) ++ [(i, o)]) sd p /\ eg (on t i) = (sd, p)) ->
  inv (finish t i rest o (Sst (todo s) (drawn s) eg bs (lock s) (log s))).
Proof.
  intros I T R Oth Bn (sd & p & D & G). set (e := on t i) in *.
  set (s' := finish t i rest o (Sst (todo s) (drawn s) eg bs (lock s) (log s))).
  assert (Ex : forall u j, ready s u j -> on u j = e -> u = t) by (intros u j R' O; exact (exclusive s u t j _ I R' R O)).
  assert (K : forall k u, u <> t -> lock s k = Some u -> lock s' k = Some u).
  { intros k u Nu L. unfold s', finish. cbn [lock]. destruct (place_of i) eqn:P; auto. unfold upd1. destruct (Nat.eqb_spec k k0) as [->|]; [|exact L].
    destruct R as [_ L']. rewrite (L' _ P) in L. congruence. }
  assert (K' : forall k u, lock s' k = Some u -> lock s k = Some u /\ (u = t -> place_of i <> Guarded k)).
  { intros k u. unfold s', finish. cbn [lock]. destruct (place_of i) eqn:P; [split; auto; discriminate|split; auto; discriminate|].
    unfold upd1. destruct (Nat.eqb_spec k k0) as [->|]; [discriminate|]. split; auto. intros _ [= ->]. congruence. }
  assert (M : forall u j, u <> t -> ready s u j -> ready s' u j).
  { intros u j Nu [H L]. split; [unfold s', finish; cbn [todo]; rewrite upd1_ne by auto; exact H|]. intros k P. apply K; auto. }
  pose proof I as [J1 J2 J3 J4 J5 J6 J7 J8]. constructor.
  - intros u. unfold s', finish. cbn [todo log]. rewrite by_app. unfold items. rewrite map_app, by_one. destruct (Nat.eqb_spec t u) as [->|Nu].
    + rewrite upd1_eq. cbn [map fst]. rewrite <- app_assoc. cbn [app]. rewrite <- T. apply J1.
    + rewrite upd1_ne by auto. cbn [map]. rewrite app_nil_r. apply J1.
  - intros u. unfold s' at 1, finish. cbn [drawn]. destruct (Nat.eq_dec u t) as [->|Nu]; [rewrite upd1_eq; congruence|].
    rewrite upd1_ne by auto. intros N. destruct (J2 u N) as (j & R'). eauto.
  - intros e' u. unfold s' at 1, finish. cbn [busy]. intros H. destruct (eng_eqb e' e) eqn:E; [apply eng_eqb_spec in E; congruence|].
    assert (Ne : e' <> e) by (intros ->; rewrite eng_eqb_refl in E; discriminate). rewrite (proj2 (Oth e' Ne)) in H.
    destruct (J3 e' u H) as (j & R' & O). exists j. split; [|exact O]. apply M; [|exact R']. intros ->. destruct R' as [Hj _]. rewrite T in Hj.
    injection Hj as <-. fold e in O. congruence.
  - intros k u H. destruct (K' k u H) as [L Q]. destruct (J4 k u L) as (j & Hj & Pj). exists j. split; [|exact Pj].
    unfold s', finish. cbn [todo]. destruct (Nat.eq_dec u t) as [->|Nu]; [|rewrite upd1_ne by auto; exact Hj].
    rewrite T in Hj. injection Hj as <-. exfalso. exact (Q eq_refl Pj).
  - intros u j r c'. unfold s', finish. cbn [todo drawn]. destruct (Nat.eq_dec u t) as [->|Nu].
    + rewrite !upd1_eq. cbn. lia.
    + rewrite !upd1_ne by auto. apply J5.
  - intros e' u w c r. unfold s', finish. cbn [todo drawn busy]. intros H.
    destruct (eng_eqb e' e) eqn:E; [apply eng_eqb_spec in E; congruence|].
    assert (Ne : e' <> e) by (intros ->; rewrite eng_eqb_refl in E; discriminate). rewrite (proj2 (Oth e' Ne)) in H.
    destruct (Nat.eq_dec u t) as [->|Nu].
    + exfalso. destruct (J3 e' t H) as (j & [Hj _] & O). rewrite T in Hj. injection Hj as <-. fold e in O. congruence.
    + rewrite !upd1_ne by auto. apply J6 with (1 := H).
  - intros u w sd' r. unfold s', finish. cbn [todo drawn]. destruct (Nat.eq_dec u t) as [->|Nu]; [rewrite !upd1_eq; auto|]. rewrite !upd1_ne by auto. apply J7.
  - intros e'. unfold s' at 1, finish. cbn [log]. rewrite with_app, with_one. fold e. destruct (eng_eqb e e') eqn:E.
    + apply eng_eqb_spec in E. subst e'. exists sd, p. split; [exact D|]. right. split; [|exact G].
      intros u j Hj O. unfold s', finish in *. cbn [todo drawn] in *. destruct (Nat.eq_dec u t) as [->|Nu]; [apply upd1_eq|].
      rewrite upd1_ne in Hj by auto. rewrite upd1_ne by auto. destruct (drawn s u) as [|x d] eqn:Du; [reflexivity|]. exfalso.
      destruct (J2 u ltac:(rewrite Du; discriminate)) as (j' & R'). destruct R' as [Hj' L']. rewrite Hj in Hj'. injection Hj' as <-.
      exact (Nu (Ex u j (conj Hj L') O)).
    + assert (Ne : e' <> e) by (intros ->; rewrite eng_eqb_refl in E; discriminate). rewrite app_nil_r.
      destruct (J8 e') as (sd1 & p1 & D1 & [(u & j & R1 & E1 & W1 & G1)|[N1 G1]]); exists sd1, p1; (split; [exact D1|]).
      * assert (Nu : u <> t) by (intros ->; destruct R1 as [Hj _]; rewrite T in Hj; injection Hj as <-; fold e in E1; congruence).
        left. exists u, j. split; [apply M; auto|]. split; [exact E1|]. unfold s', finish. cbn [drawn engs]. rewrite upd1_ne by auto.
        rewrite (proj1 (Oth e' Ne)). auto.
      * right. unfold s', finish. cbn [todo drawn engs]. split; [|rewrite (proj1 (Oth e' Ne)); exact G1].
        intros u j Hj O. destruct (Nat.eq_dec u t) as [->|Nu]; [apply upd1_eq|]. rewrite upd1_ne in Hj by auto. rewrite upd1_ne by auto. eauto.
Qed.

Lemma finish_same t i rest o s : finish t i rest o s = finish t i rest o (Sst (todo s) (drawn s) (engs s) (busy s) (lock s) (log s)).
Proof. destruct s. reflexivity. Qed.
Theorem step_inv s t r : inv s -> sstep out t s = Some r -> exists s', r = Ok s' /\ inv s'.
Proof.
  intros I H. unfold sstep in H. destruct (todo s t) as [|i rest] eqn:T; [discriminate|].
  destruct (unlocked t i s) eqn:U.
  { destruct (place_of i) eqn:P; try discriminate. destruct (lock s k) eqn:L; [discriminate|]. injection H as <-. eexists. split; [reflexivity|].
    eapply inv_lock; eauto. }
  pose proof (unlocked_ready s t i rest T U) as R.
  assert (NB : (match busy s (on t i) with Some u => Nat.eqb u t | None => false end) = false -> busy s (on t i) = None).
  { destruct (busy s (on t i)) as [u|] eqn:B; [|reflexivity]. rewrite (not_busy s t i I R u B), Nat.eqb_refl. discriminate. }
  assert (IB : (match busy s (on t i) with Some u => Nat.eqb u t | None => false end) = true -> busy s (on t i) = Some t).
  { destruct (busy s (on t i)) as [u|] eqn:B; [|discriminate]. rewrite (not_busy s t i I R u B). reflexivity. }
  destruct (match busy s (on t i) with Some u => Nat.eqb u t | None => false end).
  - specialize (IB eq_refl). clear NB. destruct i as [w c|w sd].
    + destruct (engs s (on t (Sample w c))) as [sd p] eqn:G. injection H as <-. eexists. split; [reflexivity|]. eapply inv_draw; eauto.
    + injection H as <-. eexists. split; [reflexivity|]. apply inv_finish; auto.
      * intros e Ne. rewrite !updE_ne by auto. auto.
      * apply updE_eq.
      * destruct (engine_at s t _ I R) as (sd0 & p0 & D & _ & _). exists sd, 0%nat. split; [|apply updE_eq].
        eapply done_app; [exact D|]. constructor. constructor.
  - specialize (NB eq_refl). clear IB. destruct i as [w c|w sd].
    + destruct (perform c (drawn s t)) eqn:Pf.
      5:{ injection H as <-. unfold begin_access. rewrite NB. eexists. split; [reflexivity|]. eapply inv_begin; eauto. intros w' c' [= <- <-]. exact Pf. }
      all: injection H as <-; eexists; (split; [reflexivity|]); rewrite finish_same; apply inv_finish; auto.
      all: destruct (engine_at s t _ I R) as (sd0 & p0 & D & W & G); exists sd0, (p0 + length (drawn s t))%nat; split; [|exact G].
      all: eapply done_app; [exact D|]; apply done_call with (n := length (drawn s t)); [rewrite <- W; pose proof (answered c (drawn s t)) as Q; rewrite Pf in Q; apply Q; [discriminate|]|constructor].
      all: apply (i_min s I t _ _ c T); eauto.
    + injection H as <-. unfold begin_access. rewrite NB. eexists. split; [reflexivity|]. eapply inv_begin; eauto. discriminate.
Qed.
Theorem run_inv sch : forall s, inv s -> exists s', srun out sch s = Ok s' /\ inv s'.
Proof.
  induction sch as [|t sch IH]; intros s I; cbn [srun]; [eauto|]. destruct (sstep out t s) as [r|] eqn:E; [|auto].
  destruct (step_inv s t r I E) as (s' & -> & I'). auto.
Qed.

(** Nobody waits for ever: a thread that cannot take its next step waits for one that can. *)
Theorem progress s t : inv s -> todo s t <> [] -> sstep out t s <> None \/
  exists u k, u <> t /\ lock s k = Some u /\ sstep out u s <> None.
Proof.
  intros I N. destruct (todo s t) as [|i rest] eqn:T; [congruence|].
  assert (Go : forall u j r, todo s u = j :: r -> unlocked u j s = false -> sstep out u s <> None).
  { intros u j r Tu Uu. unfold sstep. rewrite Tu, Uu. destruct j as [w c|w sd].
    - destruct (match busy s (on u (Sample w c)) with Some v => Nat.eqb v u | None => false end).
      + destruct (engs s (on u (Sample w c))). discriminate.
      + destruct (perform c (drawn s u)); discriminate.
    - destruct (match busy s (on u (Seed w sd)) with Some v => Nat.eqb v u | None => false end); discriminate. }
  destruct (unlocked t i s) eqn:U; [|left; eapply Go; eauto].
  unfold sstep at 1. rewrite T, U. unfold unlocked in U. destruct (place_of i) eqn:P; try discriminate.
  destruct (lock s k) as [u|] eqn:L; [|left; discriminate]. right.
  destruct (Nat.eqb_spec u t) as [->|Nu]; [discriminate|]. exists u, k. split; [exact Nu|]. split; [exact L|].
  destruct (i_lock s I k u L) as (j & Hj & Pj). destruct (todo s u) as [|j' r'] eqn:Tu; [discriminate|]. injection Hj as ->.
  apply (Go u j r' Tu). unfold unlocked. rewrite Pj, L, Nat.eqb_refl. reflexivity.
Qed.
End Threads.
