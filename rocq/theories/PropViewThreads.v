(** * PropViewThreads: property C71 (threads that work through views of shared arrays).

    [steps N (m, Ps) (m', Ps')]: the threads [Ps] make [N] accesses to elements (reads and writes, in any interleaving), from the memory [m] to [m'].
    [start chk fuel tss]: one thread per list of statements.  [one_after_the_other]: the threads run one after the other, with the functions of Expr.v.
    [independent]: no thread writes an element that another one reads or writes.  [all_accesses]: the number of accesses of all threads. *)

From Coq Require Import ZArith List Bool Lia Arith Permutation.
From Verif Require Import Base Spec Desc Slice SliceSpec Expr ExprSpec Lemmas ExprProofs ArrAssign ViewThreads ViewThreadsProofs.
Import ListNotations.
Open Scope Z_scope.

Definition start {V} (chk : bool) (fuel : nat) (tss : list (list (@stmt V))) : list (@prog V) := map (fun ts => p_thread chk fuel ts []) tss.
Definition all_ok {V} (fuel : nat) (m : @mem V) (tss : list (list (@stmt V))) : Prop := forall ts t, In ts tss -> In t ts -> ok_stmt fuel m t.

(** Every interleaving: no data race, no thread stops or gets stuck, the number of accesses is fixed, and when all threads are done the memory and the values
    computed are those of running the threads one after the other. *)
Theorem parallel_views : forall (V : Type) chk fuel (m : @mem V) tss, all_ok fuel m tss -> independent fuel tss ->
  exists outs m', one_after_the_other chk fuel tss m = Ok (outs, m') /\
  forall N mk Ps, steps N (m, start chk fuel tss) (mk, Ps) ->
    ~ data_race Ps /\
    (N <= all_accesses tss)%nat /\ (finished Ps <-> N = all_accesses tss) /\
    (finished Ps \/ exists i P m2 P2, nth_error Ps i = Some P /\ step1 mk P = Some (m2, P2)) /\
    (finished Ps -> mk = m' /\ Ps = map Done outs).
Proof.
  intros V chk fuel m tss OK Ind. destruct (in_turn_threads chk fuel tss m OK) as [outs [m' [E T]]]. exists outs, m'. split; [exact E|].
  intros N mk Ps St. destruct (threads_fit chk fuel m tss OK) as [F C]. assert (A := independent_apart fuel tss Ind).
  destruct (steps_in_turn N _ _ St _ A F) as [I1 [I2 I3]]. cbn [fst snd] in *. unfold start in I1. rewrite T in I1.
  destruct (steps_takes N _ _ St _ C) as [ns [C2 L]]. cbn [fst snd] in *. fold (all_accesses tss) in L.
  split; [exact (no_race _ _ _ A I2)|]. split; [lia|]. split; [rewrite (takes_finished _ _ C2); lia|]. split; [exact (all_fit_progress _ _ _ I2)|].
  intros Fin. destruct (in_turn_done Ps mk Fin) as [outs' [E' ->]]. rewrite E' in I1. injection I1 as <- <-. auto.
Qed.

Lemma steps_app {V} N s s' : @steps V N s s' -> forall N' s'', steps N' s' s'' -> steps (N + N') s s''.
Proof. induction 1 as [N s ->|N N0 i m Ps P m' P' s -> E St _ IH]; intros N' s'' H; [exact H|]. cbn [Nat.add]. eapply steps_S; [reflexivity|exact E|exact St|]. apply IH. exact H. Qed.
Lemma alone_steps {V} (P : @prog V) : forall m out m' Ps i, alone P m = Some (out, m') -> nth_error Ps i = Some P -> exists N, steps N (m, Ps) (m', upd_nat Ps i (Done out)).
Proof.
  induction P as [o| |sid p k IH|sid p v k IH]; intros m out m' Ps i E Hi; cbn [alone] in E; try discriminate E.
  - injection E as <- <-. exists O. replace (upd_nat Ps i (Done o)) with Ps; [apply steps_0; reflexivity|].
    revert i Hi. induction Ps as [|Q Ps IH]; intros [|i] Hi; cbn in *; try discriminate; [congruence|]. f_equal. auto.
  - destruct (load m sid p) as [v| | | |] eqn:Ev; try discriminate E. destruct (IH v m out m' (upd_nat Ps i (k v)) i E) as [N H].
    { apply nth_upd_nat_same. apply nth_error_Some. congruence. }
    rewrite upd_nat_twice in H. exists (S N). eapply steps_S; [reflexivity|exact Hi|cbn [step1]; rewrite Ev; reflexivity|exact H].
  - destruct (store m sid p v) as [m1| | | |] eqn:Ev; try discriminate E. destruct (IH m1 out m' (upd_nat Ps i k) i E) as [N H].
    { apply nth_upd_nat_same. apply nth_error_Some. congruence. }
    rewrite upd_nat_twice in H. exists (S N). eapply steps_S; [reflexivity|exact Hi|cbn [step1]; rewrite Ev; reflexivity|exact H].
Qed.
Lemma independent_perm {V} fuel (tss tss' : list (list (@stmt V))) : Permutation tss tss' -> independent fuel tss -> independent fuel tss'.
Proof.
  intros P H i j ts us t u c N Ei Ej. apply Permutation_nth_error in P as [_ [f [Inj Hf]]]. rewrite Hf in Ei, Ej. apply (H (f i) (f j)); auto.
Qed.
Lemma independent_tail {V} fuel ts (tss : list (list (@stmt V))) : independent fuel (ts :: tss) -> independent fuel tss.
Proof. intros H i j us vs t u c N Ei Ej. apply (H (S i) (S j)); auto. Qed.

(** In whatever order the threads run one after the other, the memory is the same and every thread computes the same values. *)
Theorem parallel_order : forall (V : Type) chk fuel (m : @mem V) tss tss', all_ok fuel m tss -> independent fuel tss -> Permutation tss tss' ->
  exists outs outs' m', one_after_the_other chk fuel tss m = Ok (outs, m') /\ one_after_the_other chk fuel tss' m = Ok (outs', m') /\ Permutation (combine tss outs) (combine tss' outs').
Proof.
  intros V chk fuel m tss tss' OK Ind P. revert m OK Ind. induction P as [|ts tss tss' P IH|ts us tss|tss1 tss2 tss3 P1 IH1 P2 IH2]; intros m OK Ind.
  - exists [], [], m. repeat split; constructor.
  - cbn [one_after_the_other]. destruct (alone_thread chk fuel ts [] m) as [vs [m1 [-> [Sh A]]]]; [intros t Ht; apply (OK ts t); [left; reflexivity|exact Ht]|]. cbn [bindO fst snd].
    destruct (IH m1) as [o1 [o2 [m' [-> [-> Q]]]]]; [intros u t Hu Ht; apply (ok_stmt_shape _ _ _ _ Sh), (OK u t); [right; exact Hu|exact Ht]|exact (independent_tail _ _ _ Ind)|].
    cbn [bindO fst snd]. exists (vs :: o1), (vs :: o2), m'. repeat split. cbn [combine]. constructor. exact Q.
  - cbn [one_after_the_other].
    assert (OKt : forall t, In t ts -> ok_stmt fuel m t) by (intros t Ht; apply (OK ts t); [right; left; reflexivity|exact Ht]).
    assert (OKu : forall t, In t us -> ok_stmt fuel m t) by (intros t Ht; apply (OK us t); [left; reflexivity|exact Ht]).
    destruct (alone_thread chk fuel us [] m OKu) as [u [m1 [E1 [S1 A1]]]]. destruct (alone_thread chk fuel ts [] m OKt) as [t [m2 [E2 [S2 A2]]]].
    destruct (alone_thread chk fuel ts [] m1) as [t' [m3 [E3 [S3 A3]]]]; [intros x Hx; apply (ok_stmt_shape _ _ _ _ S1), OKt; exact Hx|].
    destruct (alone_thread chk fuel us [] m2) as [u' [m4 [E4 [S4 A4]]]]; [intros x Hx; apply (ok_stmt_shape _ _ _ _ S2), OKu; exact Hx|]. cbn [app] in *.
    assert (OK2 : forall xs x, In xs [us; ts] -> In x xs -> ok_stmt fuel m x) by (intros xs x [<-|[<-|[]]] Hx; auto).
    destruct (threads_fit chk fuel m [us; ts] OK2) as [F _].
    assert (Ap : apart (map (fun ts => (thread_reads fuel ts, thread_writes fuel ts)) [us; ts])).
    { apply independent_apart. intros i j xs ys x y c N Ei Ej. apply (Ind i j); auto.
      - destruct i as [|[|i]]; cbn in *; auto. destruct i; discriminate Ei.
      - destruct j as [|[|j]]; cbn in *; auto. destruct j; discriminate Ej. }
    cbn [map] in F. destruct (alone_steps _ m t m2 [p_thread chk fuel us []; p_thread chk fuel ts []] 1 A2 eq_refl) as [N1 R1]. cbn [upd_nat] in R1.
    destruct (alone_steps _ m2 u' m4 [p_thread chk fuel us []; Done t] 0 A4 eq_refl) as [N2 R2]. cbn [upd_nat] in R2.
    destruct (steps_in_turn _ _ _ (steps_app _ _ _ R1 _ _ R2) _ Ap F) as [I1 _]. cbn [fst snd in_turn alone] in I1. rewrite A1, A3 in I1. injection I1 as <- <- <-.
    rewrite E1, E2. cbn [bindO fst snd]. rewrite E3, E4. cbn [bindO fst snd].
    destruct (in_turn_threads chk fuel tss m4) as [outs [m' [-> _]]].
    { intros xs x Hxs Hx. apply (ok_stmt_shape _ _ _ _ S4), (ok_stmt_shape _ _ _ _ S2), (OK xs x); [right; right; exact Hxs|exact Hx]. }
    cbn [bindO fst snd]. exists (u' :: t :: outs), (t :: u' :: outs), m'. repeat split. cbn [combine]. apply perm_swap.
  - destruct (IH1 m OK Ind) as [o1 [o2 [m' [H1 [H2 Q1]]]]].
    destruct (IH2 m) as [o2' [o3 [m'' [H2' [H3 Q2]]]]]; [intros ts t Hts; apply OK; eapply Permutation_in; [apply Permutation_sym; exact P1|exact Hts]|exact (independent_perm _ _ _ P1 Ind)|].
    rewrite H2 in H2'. injection H2' as <- <-. exists o1, o3, m'. repeat split; auto. eapply Permutation_trans; eauto.
Qed.

(** A given schedule. *)
Fixpoint run {V} (is : list nat) (s : @mem V * list (@prog V)) : option (@mem V * list (@prog V)) :=
  match is with
  | [] => Some s
  | i :: is' => match nth_error (snd s) i with
                | Some P => match step1 (fst s) P with Some (m', P') => run is' (m', upd_nat (snd s) i P') | None => None end
                | None => None
                end
  end.
Lemma run_steps {V} is : forall s s' : @mem V * list (@prog V), run is s = Some s' -> steps (length is) s s'.
Proof.
  induction is as [|i is IH]; intros s s' H; cbn in H; [injection H as <-; apply steps_0; reflexivity|].
  destruct (nth_error (snd s) i) as [P|] eqn:E; [|discriminate]. destruct (step1 (fst s) P) as [[m' P']|] eqn:St; [|discriminate].
  destruct s as [m Ps]. eapply steps_S; [reflexivity|exact E|exact St|]. apply IH. exact H.
Qed.
Lemma part_view off : 0 <= off <= 8 -> is_view 9 (SRef off [2]) [2] [off; off + 1].
Proof.
  intros H. split; [reflexivity|]. split; [cbn; change (Z.to_nat (w64 (1 * 2))) with 2%nat; cbn [seq map]; change (Z.of_nat 0) with 0; rewrite Z.add_0_r; reflexivity|]. split; [discriminate|]. split; [repeat constructor; discriminate|]. split; reflexivity.
Qed.

(** Independence from an assignment of elements to threads. *)
Lemma independent_owner {V} fuel (tss : list (list (@stmt V))) (own : nat * Z -> option nat) :
  (forall i ts t c, nth_error tss i = Some ts -> In t ts -> (writes fuel t c -> own c = Some i) /\ (looks fuel t c -> own c = None \/ own c = Some i)) -> independent fuel tss.
Proof.
  intros H i j ts us t u c N Ei Ej Ht Hu Hw. destruct (H i ts t c Ei Ht) as [H1 _]. specialize (H1 Hw). destruct (H j us u c Ej Hu) as [H2 H3]. split.
  - intros X. specialize (H2 X). congruence.
  - intros X. destruct (H3 X); congruence.
Qed.

(** ** overlapping writes *)
(** [a[slice(0, 2)] = b] and [a[slice(1, 2)] = c] in two threads: a data race can be reached, and two schedules end with different memories. *)
Theorem parallel_overlap_refuted : exists (m m1 m2 : @mem Z) tss, all_ok 9 m tss /\ ~ independent 9 tss /\
  (exists N mk Ps, steps N (m, start true 9 tss) (mk, Ps) /\ data_race Ps) /\
  (exists N, steps N (m, start true 9 tss) (m1, [Done []; Done []])) /\ (exists N, steps N (m, start true 9 tss) (m2, [Done []; Done []])) /\ m1 <> m2.
Proof.
  exists [[1; 2; 3]; [10; 20]; [30; 40]], [[10; 30; 40]; [10; 20]; [30; 40]], [[10; 20; 40]; [10; 20]; [30; 40]],
    [[TAssign 0 (SRef 0 [2]) (ELeaf 1 (SRef 0 [2]))]; [TAssign 0 (SRef 1 [2]) (ELeaf 2 (SRef 0 [2]))]].
  split; [|split; [|split; [|split; [|split]]]].
  - intros ts t [<-|[<-|[]]] [<-|[]]; cbn [ok_stmt].
    + exists [2], [0; 1]. split; [apply (part_view 0); lia|]. split; [exists [1; 2; 3]; split; [reflexivity|repeat constructor; discriminate]|]. split; [cbn; lia|].
      apply ok_leaf with (ps := [0; 1]); [apply (part_view 0); lia|]. exists [10; 20]. split; [reflexivity|]. repeat constructor; discriminate.
    + exists [2], [1; 2]. split; [apply (part_view 1); lia|]. split; [exists [1; 2; 3]; split; [reflexivity|repeat constructor; discriminate]|]. split; [cbn; lia|].
      apply ok_leaf with (ps := [0; 1]); [apply (part_view 0); lia|]. exists [30; 40]. split; [reflexivity|]. repeat constructor; discriminate.
  - intros H. destruct (H 0%nat 1%nat _ _ _ _ (0%nat, 1) ltac:(lia) eq_refl eq_refl ltac:(left; reflexivity) ltac:(left; reflexivity)) as [N _].
    + split; [reflexivity|]. exists [0; 1]. split; [reflexivity|]. right. left. reflexivity.
    + apply N. split; [reflexivity|]. exists [1; 2]. split; [reflexivity|]. left. reflexivity.
  - eexists _, _, _. split; [apply (run_steps [0; 0; 0; 1]%nat); reflexivity|].
    exists 0%nat, 1%nat. eexists _, _, 0%nat, 1, true, true. split; [lia|]. split; [reflexivity|]. split; [reflexivity|]. split; [reflexivity|]. split; [reflexivity|]. auto.
  - eexists. apply (run_steps [0; 0; 0; 0; 1; 1; 1; 1]%nat). reflexivity.
  - eexists. apply (run_steps [1; 1; 1; 1; 0; 0; 0; 0]%nat). reflexivity.
  - discriminate.
Qed.

(** ** example *)
(** Three threads on an array of six elements (storage 0) and one of two (storage 1): the first two elements become [2 * b], the next two are negated and then
    added to [b], the third thread computes [b * b] and reverses the last two with [overlap]. *)
Example parallel_ex :
  let m := [[1; 2; 3; 4; 5; 6]; [10; 20]] in
  let b := ELeaf 1 (SRef 0 [2]) in
  let tss := [[TAssign 0 (SRef 0 [2]) (ELeft Z.mul 2 b)]; [TUpdate 0 (SRef 2 [2]) Z.opp; TInplace 0 (SRef 2 [2]) Z.add b];
              [TEval (EBin Z.mul b b); TOverlap 0 (SView 4 (MVec (SD 0 [2] [1]) [1; 0])) (ELeaf 0 (SRef 4 [2]))]] in
  all_ok 9 m tss /\ independent 9 tss /\ all_accesses tss = 22%nat /\
  one_after_the_other true 9 tss m = Ok ([[]; []; [100; 400]], [[20; 40; 7; 16; 6; 5]; [10; 20]]) /\
  run [2; 1; 0; 2; 1; 1; 0; 2; 2; 1; 2; 0; 1; 1; 1; 2; 1; 0; 1; 2; 1; 2]%nat (m, start true 9 tss) = Some ([[20; 40; 7; 16; 6; 5]; [10; 20]], [Done []; Done []; Done [100; 400]]).
Proof.
  cbv zeta. split; [|split; [|split; [reflexivity|split; reflexivity]]].
  - assert (Kb : expr_ok 9 [[1; 2; 3; 4; 5; 6]; [10; 20]] (ELeaf 1 (SRef 0 [2])) [2]).
    { apply ok_leaf with (ps := [0; 1]); [apply (part_view 0); lia|]. exists [10; 20]. split; [reflexivity|]. repeat constructor; discriminate. }
    intros ts t [<-|[<-|[<-|[]]]] Ht; cbn in Ht; repeat (destruct Ht as [<-|Ht]); try contradiction; cbn [ok_stmt].
    + exists [2], [0; 1]. split; [apply (part_view 0); lia|]. split; [exists [1; 2; 3; 4; 5; 6]; split; [reflexivity|repeat constructor; discriminate]|]. split; [cbn; lia|]. constructor. exact Kb.
    + exists [2], [2; 3]. split; [apply (part_view 2); lia|]. split; [exists [1; 2; 3; 4; 5; 6]; split; [reflexivity|repeat constructor; discriminate]|]. cbn; lia.
    + exists [2], [2; 3]. split; [apply (part_view 2); lia|]. split; [exists [1; 2; 3; 4; 5; 6]; split; [reflexivity|repeat constructor; discriminate]|]. split; [cbn; lia|]. exact Kb.
    + exists [2]. constructor; exact Kb.
    + exists [2], [5; 4]. split; [repeat split; try reflexivity; try discriminate; repeat constructor; discriminate|]. split; [exists [1; 2; 3; 4; 5; 6]; split; [reflexivity|repeat constructor; discriminate]|]. split; [cbn; lia|].
      apply ok_leaf with (ps := [4; 5]); [apply (part_view 4); lia|]. exists [1; 2; 3; 4; 5; 6]. split; [reflexivity|]. repeat constructor; discriminate.
  - apply (independent_owner 9 _ (fun c => match fst c with O => Some (if snd c <? 2 then 0%nat else if snd c <? 4 then 1%nat else 2%nat) | _ => None end)).
    assert (Rb : forall i k c, In c (reads 9 (ELeaf 1 (SRef 0 [2]) : @expr Z) k) ->
      match fst c with O => Some (if snd c <? 2 then 0%nat else if snd c <? 4 then 1%nat else 2%nat) | _ => None end = None \/
      match fst c with O => Some (if snd c <? 2 then 0%nat else if snd c <? 4 then 1%nat else 2%nat) | _ => None end = Some i).
    { intros i k c. cbn. destruct k as [|[|[|k]]]; cbn; intros Hc; try contradiction; destruct Hc as [<-|[]]; left; reflexivity. }
    intros i ts t c Ei Ht. destruct i as [|[|[|i]]]; [| | |destruct i; discriminate Ei]; injection Ei as <-; cbn in Ht; repeat (destruct Ht as [<-|Ht]); try contradiction; split.
    + intros [H [ps [[= <-] Hp]]]. destruct c as [sid q]. cbn in H, Hp. subst sid. destruct Hp as [<-|[<-|[]]]; reflexivity.
    + intros [k Hk]. apply (Rb 0%nat k). exact Hk.
    + intros [H [ps [[= <-] Hp]]]. destruct c as [sid q]. cbn in H, Hp. subst sid. destruct Hp as [<-|[<-|[]]]; reflexivity.
    + intros [H [ps [[= <-] Hp]]]. destruct c as [sid q]. cbn in H, Hp. subst sid. right. destruct Hp as [<-|[<-|[]]]; reflexivity.
    + intros [H [ps [[= <-] Hp]]]. destruct c as [sid q]. cbn in H, Hp. subst sid. destruct Hp as [<-|[<-|[]]]; reflexivity.
    + intros [[H [ps [[= <-] Hp]]]|[k Hk]]; [|apply (Rb 1%nat k); exact Hk]. destruct c as [sid q]. cbn in H, Hp. subst sid. right. destruct Hp as [<-|[<-|[]]]; reflexivity.
    + intros [].
    + intros [k Hk]. cbn [reads] in Hk. apply in_app_or in Hk as [Hk|Hk]; apply (Rb 2%nat k); exact Hk.
    + intros [H [ps [[= <-] Hp]]]. destruct c as [sid q]. cbn in H, Hp. subst sid. destruct Hp as [<-|[<-|[]]]; reflexivity.
    + intros [k Hk]. right. cbn in Hk. destruct k as [|[|[|k]]]; cbn in Hk; try contradiction; destruct Hk as [<-|[]]; reflexivity.
Qed.

Print Assumptions parallel_views.
Print Assumptions parallel_order.
Print Assumptions parallel_overlap_refuted.
