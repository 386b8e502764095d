(** * EffectsRec: the recorded calls of an expression. *)

From Coq Require Import ZArith List Bool Lia Arith.
From Verif Require Import Base Spec Desc Slice SliceSpec Expr ExprSpec Lemmas DescProofs LifeProofs RunProofs ViewThms ExprProofs ExprThms ExprSeq
  ArrAssign Reduce ReduceProofs RangeLoop RangeLoopSpec RangeLoopProofs Effects EffectsSpec EffectsProofs.
Import ListNotations.
Open Scope Z_scope.

Section Rec.
Context {V : Type}.
Notation mem := (@mem V).
Notation expr := (@expr V).
Notation record := (@record V).
Implicit Types (m : mem) (e : expr) (l : list record).

Lemma recording_ok lf fuel m e es : expr_ok fuel m e es -> forall q, eexpr_ok fuel m (recording lf q e) es.
Proof. intros K. induction K; intros q; cbn [recording]; econstructor; eauto; intros ? ?; intros; reflexivity. Qed.

Definition under (q : place) (r : record) : record := (q ++ fst r, snd r).

Lemma map_under q l : map fst (map (under q) l) = map (app q) (map fst l).
Proof. rewrite !map_map. reflexivity. Qed.
Lemma under_under q q' l : map (under q) (map (under q') l) = map (under (q ++ q')) l.
Proof. rewrite map_map. apply map_ext. intros r. unfold under. cbn. rewrite app_assoc. reflexivity. Qed.

Lemma NoDup_app' {A} (l1 l2 : list A) : NoDup l1 -> NoDup l2 -> (forall x, In x l1 -> In x l2 -> False) -> NoDup (l1 ++ l2).
Proof.
  induction l1 as [|a l1 IH]; cbn; intros H1 H2 H; auto. inversion H1; subst. constructor.
  - rewrite in_app_iff. intros [A0|A0]; eauto.
  - apply IH; auto. intros x Hx. apply H. auto.
Qed.

(** order: nothing after a call belongs to its operands *)
Definition operands_first l : Prop :=
  forall i j q q', nth_error (map fst l) i = Some q -> nth_error (map fst l) j = Some (q ++ q') -> q' <> [] -> (j < i)%nat.
Lemma first_under b l : operands_first l -> operands_first (map (under [b]) l).
Proof.
  intros H i j q q' Hi Hj Hq. rewrite map_under in *. rewrite nth_error_map in Hi, Hj.
  unfold option_map in Hi, Hj. match type of Hi with (match ?x with _ => _ end) = _ => destruct x as [qi|] eqn:Ei; [|discriminate Hi] end.
  match type of Hj with (match ?x with _ => _ end) = _ => destruct x as [qj|] eqn:Ej; [|discriminate Hj] end. cbn [app] in Hi, Hj.
  injection Hi as Hi. injection Hj as Hj. subst q. injection Hj as Hj. subst qj. eapply H; eauto.
Qed.
Lemma first_app l1 l2 : operands_first l1 -> operands_first l2 ->
  (forall q q', q' <> [] -> In q (map fst l1) -> In (q ++ q') (map fst l2) -> False) -> operands_first (l1 ++ l2).
Proof.
  intros H1 H2 H i j q q' Hi Hj Hq. rewrite map_app in *. destruct (Nat.lt_ge_cases i (length (map fst l1))) as [A|A], (Nat.lt_ge_cases j (length (map fst l1))) as [B|B].
  - rewrite nth_error_app1 in Hi, Hj by auto. eapply H1; eauto.
  - rewrite nth_error_app1 in Hi by auto. rewrite nth_error_app2 in Hj by auto. exfalso. eapply (H q q'); eauto using nth_error_In.
  - lia.
  - rewrite nth_error_app2 in Hi, Hj by auto. assert ((j - length (map fst l1) < i - length (map fst l1))%nat) by (eapply H2; eauto). lia.
Qed.
Lemma first_one q a : operands_first [(q, a)].
Proof. intros [|i] [|j] q0 q' Hi Hj Hq; cbn in *; try (destruct i; discriminate); try (destruct j; discriminate).
  inversion Hi; inversion Hj; subst. rewrite <- (app_nil_r q0) in H1 at 1. apply app_inv_head in H1. congruence. Qed.

(** the pass of an operation from those of its operands *)
Lemma in_under b l q args : In (q, args) (map (under [b]) l) <-> exists q', q = b :: q' /\ In (q', args) l.
Proof.
  rewrite in_map_iff. split.
  - intros [[q' a] [E H]]. inversion E; subst. eauto.
  - intros [q' [-> H]]. exists (q', args). auto.
Qed.
Lemma in_fst_under b l q : In q (map fst (map (under [b]) l)) <-> exists q', q = b :: q' /\ In q' (map fst l).
Proof. rewrite map_under, in_map_iff. cbn. split; intros [q' [A B]]; exists q'; auto. Qed.

Lemma pass_un fuel m k e e' args l : (forall q, operands_at e q = match q with [] => Some [e'] | true :: q' => operands_at e' q' | _ => None end) ->
  value fuel m e' k = Some args -> pass fuel e' m k l -> pass fuel e m k (map (under [true]) l ++ [([], [args])]).
Proof.
  intros Ho Hv [H1 [H2 H3]]. split; [|split].
  - rewrite map_app. apply NoDup_app'.
    + rewrite map_under. apply FinFun.Injective_map_NoDup; auto. intros x y E. inversion E. auto.
    + cbn. constructor; auto. constructor.
    + intros q Hq [<-|[]]. apply in_fst_under in Hq as [? [? _]]. discriminate.
  - intros q as0. rewrite in_app_iff, in_under, Ho. cbn. split.
    + intros [[q' [-> H]]|[E|[]]]; [apply H2 in H; exact H|]. inversion E; subst. exists [e']. cbn. rewrite Hv. auto.
    + intros [ops [A B]]. destruct q as [|[|] q'].
      * right. left. inversion A; subst. cbn in B. rewrite Hv in B. destruct as0 as [|a [|b as0]]; inversion B. reflexivity.
      * left. exists q'. split; auto. apply H2. eauto.
      * discriminate.
  - apply first_app; [apply first_under; exact H3|apply first_one|]. intros q q' Hq Hi [E|[]]. symmetry in E. apply app_eq_nil in E as [_ ->]. congruence.
Qed.

Lemma pass_bin fuel m k (lf : bool) f e1 e2 a b l1 l2 : value fuel m e1 k = Some a -> value fuel m e2 k = Some b -> pass fuel e1 m k l1 -> pass fuel e2 m k l2 ->
  pass fuel (EBin f e1 e2) m k ((if lf then map (under [true]) l1 ++ map (under [false]) l2 else map (under [false]) l2 ++ map (under [true]) l1) ++ [([], [a; b])]).
Proof.
  intros Ha Hb [H1 [H2 H3]] [G1 [G2 G3]].
  set (ll := if lf then _ else _).
  assert (N1 : NoDup (map fst (map (under [true]) l1))). { rewrite map_under. apply FinFun.Injective_map_NoDup; auto. intros x y E. inversion E. auto. }
  assert (N2 : NoDup (map fst (map (under [false]) l2))). { rewrite map_under. apply FinFun.Injective_map_NoDup; auto. intros x y E. inversion E. auto. }
  assert (I : forall r, In r ll <-> In r (map (under [true]) l1) \/ In r (map (under [false]) l2)). { intros r. unfold ll. destruct lf; rewrite in_app_iff; tauto. }
  assert (If : forall q, In q (map fst ll) -> q <> []).
  { intros q Hq. apply in_map_iff in Hq as [[q0 x] [<- H]]. apply I in H. rewrite !in_under in H. destruct H as [[? [-> _]]|[? [-> _]]]; discriminate. }
  split; [|split].
  - rewrite map_app. apply NoDup_app'.
    + unfold ll. destruct lf; rewrite map_app; apply NoDup_app'; auto; intros q A B; rewrite in_fst_under in A, B; destruct A as [? [-> _]], B as [? [? _]]; discriminate.
    + cbn. constructor; auto. constructor.
    + intros q Hq [<-|[]]. apply (If _ Hq). reflexivity.
  - intros q as0. rewrite in_app_iff, I, !in_under. cbn [In]. split.
    + intros [[[q' [-> H]]|[q' [-> H]]]|[E|[]]]; [apply H2 in H; exact H|apply G2 in H; exact H|]. inversion E; subst. exists [e1; e2]. cbn. rewrite Ha, Hb. auto.
    + intros [ops [A B]]. destruct q as [|[|] q'].
      * right. left. inversion A; subst. cbn in B. rewrite Ha, Hb in B. destruct as0 as [|x [|y [|z as0]]]; inversion B. reflexivity.
      * left. left. exists q'. split; auto. apply H2. eauto.
      * left. right. exists q'. split; auto. apply G2. eauto.
  - apply first_app; [|apply first_one|].
    + unfold ll. destruct lf; apply first_app; try (apply first_under; assumption); intros q q' Hq A B; rewrite in_fst_under in A, B; destruct A as [? [-> _]], B as [? [? _]]; discriminate.
    + intros q q' Hq Hi [E|[]]. symmetry in E. apply app_eq_nil in E as [_ ->]. congruence.
Qed.

Lemma recording_calls lf fuel m e es k : expr_ok fuel m e es -> Z.of_nat k < zprod es -> forall q, exists v l, value fuel m e k = Some v /\ pass fuel e m k l /\
  forall log, exists o, calls fuel (recording lf q e) k (m, log) = Some (o, (m, log ++ map (under q) l)) /\
    forall log', operand fuel (recording lf q e) k o (m, log') = Some v.
Proof.
  intros K Hk. induction K as [sid s es ps Hv Hi | f e es K IH | f c e es K IH | f e c es K IH | f e1 e2 es K1 IH1 K2 IH2]; intros q; cbn [recording calls value].
  - destruct Hv as [H1 [H2 [H3 [H4 [H5 H6]]]]]. rewrite H2. destruct (nth_error ps k) as [p|] eqn:E; [|apply nth_error_None in E; lia].
    destruct (load_inside m sid ps p Hi (nth_error_In _ _ E)) as [v [_ [C _]]]. exists v, []. split; [auto|]. split.
    + split; [constructor|]. split; [|intros [|?] ? ? ? A; discriminate]. intros q0 args. cbn. split; [tauto|]. intros [ops [A _]]. destruct q0; discriminate.
    + intros log. exists None. cbn. rewrite app_nil_r, H2, E. auto.
  - destruct (IH Hk (q ++ [true])) as [v [l [Hv [P H]]]]. rewrite Hv. exists (f v), (map (under [true]) l ++ [([], [v])]). split; [reflexivity|]. split.
    + eapply pass_un; eauto. intros [|[|] ?]; reflexivity.
    + intros log. destruct (H log) as [o [-> Ho]]. rewrite Ho. exists (Some (f v)). split; [|reflexivity].
      cbn [fst snd]. rewrite map_app, under_under, app_assoc. unfold under at 3. cbn [map fst snd]. rewrite app_nil_r. reflexivity.
  - destruct (IH Hk (q ++ [true])) as [v [l [Hv [P H]]]]. rewrite Hv. exists (f c v), (map (under [true]) l ++ [([], [v])]). split; [reflexivity|]. split.
    + eapply pass_un; eauto. intros [|[|] ?]; reflexivity.
    + intros log. destruct (H log) as [o [-> Ho]]. rewrite Ho. exists (Some (f c v)). split; [|reflexivity].
      cbn [fst snd]. rewrite map_app, under_under, app_assoc. unfold under at 3. cbn [map fst snd]. rewrite app_nil_r. reflexivity.
  - destruct (IH Hk (q ++ [true])) as [v [l [Hv [P H]]]]. rewrite Hv. exists (f v c), (map (under [true]) l ++ [([], [v])]). split; [reflexivity|]. split.
    + eapply pass_un; eauto. intros [|[|] ?]; reflexivity.
    + intros log. destruct (H log) as [o [-> Ho]]. rewrite Ho. exists (Some (f v c)). split; [|reflexivity].
      cbn [fst snd]. rewrite map_app, under_under, app_assoc. unfold under at 3. cbn [map fst snd]. rewrite app_nil_r. reflexivity.
  - destruct (IH1 Hk (q ++ [true])) as [a [l1 [Ha [P1 Q1]]]]. destruct (IH2 Hk (q ++ [false])) as [b [l2 [Hb [P2 Q2]]]]. rewrite Ha, Hb.
    exists (f a b). eexists. split; [reflexivity|]. split; [apply (pass_bin _ _ _ (lf q) f e1 e2 a b l1 l2); auto|]. intros log. destruct (lf q).
    + destruct (Q1 log) as [o1 [-> Ho1]]. destruct (Q2 (log ++ map (under (q ++ [true])) l1)) as [o2 [-> Ho2]]. rewrite Ho1, Ho2. exists (Some (f a b)). split; [|reflexivity].
      cbn [fst snd]. rewrite !map_app, !under_under, !app_assoc. unfold under at 5. cbn [map fst snd]. rewrite app_nil_r. reflexivity.
    + destruct (Q2 log) as [o2 [-> Ho2]]. destruct (Q1 (log ++ map (under (q ++ [false])) l2)) as [o1 [-> Ho1]]. rewrite Ho1, Ho2. exists (Some (f a b)). split; [|reflexivity].
      cbn [fst snd]. rewrite !map_app, !under_under, !app_assoc. unfold under at 5. cbn [map fst snd]. rewrite app_nil_r. reflexivity.
Qed.

Lemma recording_element lf fuel m e es k : expr_ok fuel m e es -> Z.of_nat k < zprod es -> exists v l, value fuel m e k = Some v /\ pass fuel e m k l /\
  forall log, element fuel (recording lf [] e) k (m, log) = Some (v, (m, log ++ l)).
Proof.
  intros K Hk. destruct (recording_calls lf _ _ _ _ _ K Hk []) as [v [l [A [B C]]]]. exists v, l. split; [auto|]. split; [auto|].
  intros log. destruct (C log) as [o [D E]]. unfold element. rewrite D, E. f_equal. f_equal. f_equal. f_equal. rewrite <- (map_id l) at 2. apply map_ext. intros [? ?]. reflexivity.
Qed.

Lemma passes_nil fuel e : passes fuel e [] [].
Proof. exists []. split; [reflexivity|constructor]. Qed.
Lemma passes_cons fuel e m k l ks log : pass fuel e m k l -> passes fuel e ks log -> passes fuel e ((m, k) :: ks) (l ++ log).
Proof. intros P [ls [-> F]]. exists (l :: ls). split; [reflexivity|]. constructor; auto. Qed.
Lemma passes_app fuel e ks1 ks2 l1 l2 : passes fuel e ks1 l1 -> passes fuel e ks2 l2 -> passes fuel e (ks1 ++ ks2) (l1 ++ l2).
Proof. intros [a [-> A]] [b [-> B]]. exists (a ++ b). split; [rewrite concat_app; reflexivity|]. apply Forall2_app; auto. Qed.

(** *** evaluation *)
Lemma rec_one_by_one lf fuel m e es : expr_ok fuel m e es -> forall n k, Z.of_nat (k + n) <= zprod es -> exists vs l,
  map Some vs = map (value fuel m e) (seq k n) /\ passes fuel e (map (pair m) (seq k n)) l /\
  forall log, one_by_one fuel (recording lf [] e) k n (m, log) = Some (vs, (m, log ++ l)).
Proof.
  intros K. induction n as [|n IH]; intros k Hk; cbn [one_by_one seq map].
  - exists [], []. split; [reflexivity|]. split; [apply passes_nil|]. intros log. rewrite app_nil_r. reflexivity.
  - destruct (recording_element lf _ _ _ _ k K ltac:(lia)) as [v [l [A [B C]]]]. destruct (IH (S k) ltac:(lia)) as [vs [l' [A' [B' C']]]].
    exists (v :: vs), (l ++ l'). split; [cbn; rewrite A, A'; reflexivity|]. split; [apply passes_cons; auto|].
    intros log. rewrite C, C', app_assoc. reflexivity.
Qed.

Lemma elements_unique fuel m e es vs vs' : elements fuel m e es vs -> map Some vs' = map (value fuel m e) (seq 0 (Z.to_nat (zprod es))) -> vs' = vs.
Proof.
  intros [L H] E. assert (L' : length vs' = length vs). { apply (f_equal (@length _)) in E. rewrite !map_length, seq_length in E. lia. }
  apply nth_error_ext. intros k. destruct (Nat.lt_ge_cases k (length vs)) as [Hk|Hk]; [|rewrite !(proj2 (nth_error_None _ _)) by lia; reflexivity]. rewrite H by lia. apply (f_equal (fun x => nth_error x k)) in E. rewrite !nth_error_map in E.
  rewrite nth_error_nth' with (l := seq _ _) (d := 0%nat) in E by (rewrite seq_length; lia). rewrite seq_nth in E by lia. cbn in E.
  destruct (nth_error vs' k) eqn:Ek; [cbn in E; congruence|]. apply nth_error_None in Ek. lia.
Qed.

Theorem rec_eval lf chk fuel m e es vs : expr_ok fuel m e es -> elements fuel m e es vs ->
  exists log, eeval chk (recording lf [] e) (m, []) = Ok (es, vs, (m, log)) /\ passes fuel e (map (pair m) (seq 0 (length vs))) log.
Proof.
  intros K E. destruct (eeval_spec chk fuel m (@nil record) _ _ (recording_ok lf _ _ _ _ K [])) as [vs' [w' [A [B _]]]].
  destruct (expr_ok_dims _ _ _ _ K) as [D1 [D2 D3]]. assert (Hz := zprod_nonneg _ D2).
  destruct (rec_one_by_one lf _ _ _ _ K (Z.to_nat (zprod es)) 0 ltac:(lia)) as [vs2 [l [C [D F]]]]. rewrite F in B. cbn [app] in B. inversion B; subst vs' w'.
  assert (vs2 = vs) by (eapply elements_unique; eauto). subst vs2. exists l. split; [exact A|]. destruct E as [L _].
  replace (length vs) with (Z.to_nat (zprod es)) by lia. exact D.
Qed.

(** *** algorithms *)
(** The elements a loop looks at: up to the one that makes it return. *)
Fixpoint looked {T R} (body : T -> V -> outcome (RangeLoop.step T R)) (s : T) (vs : list V) : nat :=
  match vs with
  | [] => 0
  | v :: vs' => S (match body s v with Ok (RangeLoop.Go s') => looked body s' vs' | _ => 0 end)
  end.
Fixpoint result {T R} (body : T -> V -> outcome (RangeLoop.step T R)) (fin : T -> R) (s : T) (vs : list V) : outcome R :=
  match vs with
  | [] => Ok (fin s)
  | v :: vs' => let* q := body s v in match q with RangeLoop.Ret x => Ok x | RangeLoop.Go s' => result body fin s' vs' end
  end.
Lemma rec_over {T R} (body : T -> V -> outcome (RangeLoop.step T R)) fin lf fuel m e es : expr_ok fuel m e es ->
  forall n k s vs, Z.of_nat (k + n) <= zprod es -> map Some vs = map (value fuel m e) (seq k n) -> exists l,
  passes fuel e (map (pair m) (seq k (looked body s vs))) l /\
  forall log, over_elements body fin fuel (recording lf [] e) k n s (m, log) = Some (let* r := result body fin s vs in Ok (r, (m, log ++ l))).
Proof.
  intros K. induction n as [|n IH]; intros k s [|v vs] Hk Hvs; try discriminate; cbn [over_elements looked result seq map].
  - exists []. split; [apply passes_nil|]. intros log. rewrite app_nil_r. reflexivity.
  - inversion Hvs as [[Hv Hvs']]. destruct (recording_element lf _ _ _ _ k K ltac:(lia)) as [v' [l [A [B C]]]]. assert (v' = v) by congruence. subst v'.
    destruct (body s v) as [[s'|x]| | | |] eqn:Eb; cbn [bindO].
    2: { exists (l ++ []). split; [apply passes_cons; [auto|apply passes_nil]|]. intros log. rewrite C, Eb, app_nil_r. reflexivity. }
    2-5: exists (l ++ []); split; [apply passes_cons; [auto|apply passes_nil]|]; intros log; rewrite C, Eb; reflexivity.
    destruct (IH (S k) s' vs ltac:(lia) Hvs') as [l' [B' C']]. exists (l ++ l'). split; [apply passes_cons; auto|].
    intros log. rewrite C, Eb, C', app_assoc. reflexivity.
Qed.

Lemma elements_values fuel m e es vs : expr_ok fuel m e es -> elements fuel m e es vs -> map Some vs = map (value fuel m e) (seq 0 (Z.to_nat (zprod es))).
Proof.
  intros K E. assert (Kd := expr_ok_dims _ _ _ _ K). destruct Kd as [D1 [D2 D3]]. assert (Hz := zprod_nonneg _ D2).
  destruct (rec_one_by_one (fun _ => true) _ _ _ _ K (Z.to_nat (zprod es)) 0 ltac:(lia)) as [vs2 [l [C _]]].
  rewrite <- C. f_equal. symmetry. eapply elements_unique; eauto.
Qed.

Theorem rec_ranged {T R} (body : T -> V -> outcome (RangeLoop.step T R)) fin s lf chk fuel fu m e es vs : expr_ok fuel m e es -> elements fuel m e es vs -> (length vs < fu)%nat ->
  exists log, eranged body fin s chk fu (recording lf [] e) (m, []) = (let* r := result body fin s vs in Ok (r, (m, log))) /\
    passes fuel e (map (pair m) (seq 0 (looked body s vs))) log.
Proof.
  intros K E Hf. assert (Hv := elements_values _ _ _ _ _ K E). destruct (expr_ok_dims _ _ _ _ K) as [D1 [D2 D3]]. assert (Hz := zprod_nonneg _ D2).
  destruct (rec_over body fin lf _ _ _ _ K (Z.to_nat (zprod es)) 0 s vs ltac:(lia) Hv) as [l [A B]].
  assert (S1 := eranged_spec body fin s chk fuel fu m (@nil record) _ _ (recording_ok lf _ _ _ _ K []) ltac:(destruct E; lia)). rewrite B in S1. inversion S1. exists l. auto.
Qed.

Lemma looked_goes {T} (f : T -> V -> T) vs : forall s, looked (goes f) s vs = length vs.
Proof. induction vs as [|v vs IH]; intros s; cbn; auto. Qed.
Lemma result_goes {T} (f : T -> V -> T) vs : forall s, result (goes f) (fun x => x) s vs = Ok (fold_left f vs s).
Proof. induction vs as [|v vs IH]; intros s; cbn; auto. Qed.

Theorem rec_two_pass {T T2 R} (step1 : T -> V -> T) s1 (step2 : T -> T2 -> V -> T2) s2 (fin : T2 -> R) lf chk fuel fu m e es vs :
  expr_ok fuel m e es -> elements fuel m e es vs -> (length vs < fu)%nat ->
  exists log, etwo_pass step1 s1 step2 s2 fin chk fu (recording lf [] e) (m, []) = Ok (fin (fold_left (step2 (fold_left step1 vs s1)) vs s2), (m, log)) /\
    passes fuel e (map (pair m) (seq 0 (length vs) ++ seq 0 (length vs))) log.
Proof.
  intros K E Hf. assert (Hv := elements_values _ _ _ _ _ K E). destruct (expr_ok_dims _ _ _ _ K) as [D1 [D2 D3]]. assert (Hz := zprod_nonneg _ D2).
  destruct (etwo_pass_spec step1 s1 step2 s2 fin chk fuel fu m (@nil record) _ _ (recording_ok lf _ _ _ _ K []) ltac:(destruct E; lia)) as [a [w1 [b [w2 [A [B C]]]]]].
  destruct (rec_over (goes step1) (fun x => x) lf _ _ _ _ K (Z.to_nat (zprod es)) 0 s1 vs ltac:(lia) Hv) as [l1 [P1 Q1]].
  rewrite Q1, result_goes in A. cbn in A. inversion A; subst a w1.
  destruct (rec_over (goes (step2 (fold_left step1 vs s1))) (fun x => x) lf _ _ _ _ K (Z.to_nat (zprod es)) 0 s2 vs ltac:(lia) Hv) as [l2 [P2 Q2]].
  rewrite Q2, result_goes in B. cbn in B. inversion B; subst b w2. exists (l1 ++ l2). split; [exact C|].
  rewrite looked_goes in P1. rewrite looked_goes in P2. rewrite map_app. apply passes_app; auto.
Qed.

(** searches *)
Fixpoint visits (better : V -> V -> bool) (start : V) (k : nat) (vs : list V) : list nat :=
  match vs with
  | [] => []
  | v :: vs' => if better start v then k :: k :: visits better v (S k) vs' else k :: visits better start (S k) vs'
  end.
Lemma rec_best better lf fuel m e es : expr_ok fuel m e es ->
  forall n k start best vs, Z.of_nat (k + n) <= zprod es -> map Some vs = map (value fuel m e) (seq k n) -> exists l j,
  passes fuel e (map (pair m) (visits better start k vs)) l /\ Z.of_nat j = which_max_loop better vs start (Z.of_nat k) (Z.of_nat best) /\
  forall log, best_elements better fuel (recording lf [] e) k n start best (m, log) = Some (max_loop better vs start, j, (m, log ++ l)).
Proof.
  intros K. destruct (expr_ok_dims _ _ _ _ K) as [D1 [D2 D3]].
  induction n as [|n IH]; intros k start best [|v vs] Hk Hvs; try discriminate; cbn [best_elements visits seq map max_loop which_max_loop].
  - exists [], best. split; [apply passes_nil|]. split; [reflexivity|]. intros log. rewrite app_nil_r. reflexivity.
  - inversion Hvs as [[Hv Hvs']]. destruct (recording_element lf _ _ _ _ k K ltac:(lia)) as [v' [l [A [B C]]]]. assert (v' = v) by congruence. subst v'.
    assert (Hw : w64 (Z.of_nat k + 1) = Z.of_nat (S k)). { rewrite w64_small by (unfold W in *; lia). lia. } rewrite Hw.
    destruct (better start v) eqn:Eb.
    + destruct (IH (S k) v k vs ltac:(lia) Hvs') as [l' [j [B' [J C']]]]. exists (l ++ l ++ l'), j. split; [cbn [map]; apply passes_cons; auto; apply passes_cons; auto|].
      split; [exact J|]. intros log. rewrite C, Eb, C, C', !app_assoc. reflexivity.
    + destruct (IH (S k) start best vs ltac:(lia) Hvs') as [l' [j [B' [J C']]]]. exists (l ++ l'), j. split; [cbn [map]; apply passes_cons; auto|].
      split; [exact J|]. intros log. rewrite C, Eb, C', !app_assoc. reflexivity.
Qed.

Theorem rec_search better lf chk fuel fu m e es vs start : expr_ok fuel m e es -> elements fuel m e es vs -> (length vs < fu)%nat ->
  exists log, ebest better chk fu (recording lf [] e) start (m, []) = Ok (max_loop better vs start, which_max better vs start, (m, log)) /\
    passes fuel e (map (pair m) (visits better start 0 vs)) log.
Proof.
  intros K E Hf. assert (Hv := elements_values _ _ _ _ _ K E). destruct (expr_ok_dims _ _ _ _ K) as [D1 [D2 D3]]. assert (Hz := zprod_nonneg _ D2).
  destruct (rec_best better lf _ _ _ _ K (Z.to_nat (zprod es)) 0 start 0 vs ltac:(lia) Hv) as [l [j [A [J B]]]].
  destruct (ebest_spec better chk fuel fu m (@nil record) _ _ start (recording_ok lf _ _ _ _ K []) ltac:(destruct E; lia)) as [v [j' [w' [S1 S2]]]].
  rewrite B in S1. cbn [app] in S1. inversion S1; subst. exists l. split; [|exact A]. rewrite S2. unfold which_max. rewrite J. reflexivity.
Qed.

Lemma visits_spec better : forall vs start pre start0, start = max_loop better pre start0 ->
  visits better start (length pre) vs = flat_map (fun k => if improves better start0 (pre ++ vs) k then [k; k] else [k]) (seq (length pre) (length vs)).
Proof.
  assert (ML : forall (l : list V) x s, max_loop better (l ++ [x]) s = if better (max_loop better l s) x then x else max_loop better l s).
  { induction l as [|a l IH]; intros x s; cbn; auto. }
  induction vs as [|v vs IH]; intros start pre start0 Hs; cbn [visits length seq flat_map]; [reflexivity|].
  assert (Ei : improves better start0 (pre ++ v :: vs) (length pre) = better start v).
  { unfold improves. rewrite nth_error_app2, Nat.sub_diag, firstn_app, Nat.sub_diag, firstn_O, app_nil_r, firstn_all, <- Hs by lia. reflexivity. }
  rewrite Ei. assert (L : length (pre ++ [v]) = S (length pre)) by (rewrite app_length; cbn; lia).
  assert (IH' := IH (if better start v then v else start) (pre ++ [v]) start0). rewrite L, <- app_assoc in IH'. cbn [app] in IH'.
  specialize (IH' ltac:(rewrite ML, <- Hs; reflexivity)). destruct (better start v); rewrite IH'; reflexivity.
Qed.
Lemma visits_start better start vs : visits better start 0 vs = flat_map (fun k => if improves better start vs k then [k; k] else [k]) (seq 0 (length vs)).
Proof. apply (visits_spec better vs start [] start). reflexivity. Qed.

Lemma looked_goesO {T} (f : T -> V -> outcome T) vs : forall s r, result (goesO f) (fun x => x) s vs = Ok r -> looked (goesO f) s vs = length vs.
Proof.
  induction vs as [|v vs IH]; intros s r; cbn; auto. unfold goesO. destruct (f s v) as [s'| | | |]; cbn; try discriminate. intros H. f_equal. eapply IH. exact H.
Qed.

(** loops that stop at the first element for which [p] holds *)
Definition until (p : V -> bool) (stop : bool) : unit -> V -> outcome (RangeLoop.step unit bool) := fun _ v => Ok (if p v then RangeLoop.Ret stop else RangeLoop.Go tt).
Lemma until_spec p stop vs : exists j, first_where p vs j /\ looked (until p stop) tt vs = Nat.min (S j) (length vs) /\
  result (until p stop) (fun _ => negb stop) tt vs = Ok (if (j <? length vs)%nat then stop else negb stop).
Proof.
  induction vs as [|v vs [j [[H1 H2] [H3 H4]]]].
  - exists 0%nat. cbn. split; [|split; reflexivity]. split; [intros i x Hi; lia|auto].
  - destruct (p v) eqn:E.
    + exists 0%nat. split; [|cbn; rewrite E; auto]. split; [intros i x Hi; lia|]. right. exists v. auto.
    + exists (S j). split; [split|].
      * intros [|i] x Hi Hx; cbn in Hx; [congruence|]. eapply H1; eauto. lia.
      * destruct H2 as [->|[x [Hx Hp]]]; [left; reflexivity|right; exists x; auto].
      * cbn [looked result length]. unfold until at 1 3. rewrite E. cbn [bindO]. rewrite H3, H4. split; [lia|]. reflexivity.
Qed.

(** *** assignment *)
Fixpoint memories (sid : nat) (g : mem -> nat -> Z -> option V) (k : nat) (ps : list Z) m : list mem :=
  match ps with
  | [] => []
  | p :: ps' => m :: match g m k p with Some v => memories sid g (S k) ps' (set_cell m sid p v) | None => [] end
  end.
Lemma memories_spec sid g : forall ps k m m', in_order sid g k ps m = Some m' ->
  length (memories sid g k ps m) = length ps /\ forall i mi, nth_error (memories sid g k ps m) i = Some mi -> in_order sid g k (firstn i ps) m = Some mi.
Proof.
  induction ps as [|p ps IH]; intros k m m' H; cbn [memories in_order] in *.
  - split; [reflexivity|]. intros [|i] mi; discriminate.
  - destruct (g m k p) as [v|] eqn:E; [|discriminate]. destruct (IH _ _ _ H) as [A B]. split; [cbn; lia|]. intros [|i] mi Hi; cbn in *; [congruence|]. rewrite E. auto.
Qed.

Lemma rec_writes fuel m e es sid ps0 (g : mem -> nat -> Z -> option V) (G : nat -> Z -> world V (list record) -> option (V * world V (list record))) :
  expr_ok fuel m e es -> inside m sid ps0 ->
  (forall mk k p, same_shape m mk -> Z.of_nat k < zprod es -> In p ps0 -> exists v l, g mk k p = Some v /\ pass fuel e mk k l /\
     forall log, G k p (mk, log) = Some (v, (mk, log ++ l))) ->
  forall ps k mk, incl ps ps0 -> Z.of_nat (k + length ps) <= zprod es -> same_shape m mk -> exists m' l,
  in_order sid g k ps mk = Some m' /\ passes fuel e (combine (memories sid g k ps mk) (seq k (length ps))) l /\
  forall log, writes_in_order sid G k ps (mk, log) = Some (m', log ++ l).
Proof.
  intros K Hi HG. induction ps as [|p ps IH]; intros k mk Hin Hk Sh; cbn [in_order memories writes_in_order length seq combine].
  - exists mk, []. split; [reflexivity|]. split; [apply passes_nil|]. intros log. rewrite app_nil_r. reflexivity.
  - cbn [length] in Hk. destruct (HG mk k p Sh ltac:(lia) (Hin _ (or_introl eq_refl))) as [v [l [A [B C]]]]. rewrite A.
    assert (Sh' : same_shape m (set_cell mk sid p v)).
    { destruct (set_cell_spec mk sid ps0 p v (inside_shape _ _ _ _ Sh Hi) (Hin _ (or_introl eq_refl))) as [S2 _]. unfold same_shape in *. congruence. }
    destruct (IH (S k) (set_cell mk sid p v) (fun x Hx => Hin x (or_intror Hx)) ltac:(lia) Sh') as [m' [l' [A' [B' C']]]].
    exists m', (l ++ l'). split; [exact A'|]. split; [apply passes_cons; auto|]. intros log. rewrite C. cbn [fst snd]. rewrite C', app_assoc. reflexivity.
Qed.

Theorem rec_assign lf chk fuel fu m sid s es ps e : is_view fuel s es ps -> inside m sid ps -> expr_ok fuel m e es -> (length ps < fu)%nat ->
  exists m' log ms, eview_assign chk fu sid s (recording lf [] e) (m, []) = Ok (m', log) /\ view_assign chk fu m sid s e = Ok m' /\
    passes fuel e (combine ms (seq 0 (length ps))) log /\ length ms = length ps /\
    forall k mk, nth_error ms k = Some mk -> in_order sid (fun mk k _ => value fuel mk e k) 0 (firstn k ps) m = Some mk.
Proof.
  intros Hv Hi K Hf. destruct (eview_assign_spec chk fuel fu m (@nil record) sid s es ps _ Hv Hi (recording_ok lf _ _ _ _ K []) Hf) as [w' [A B]].
  destruct (seq_view_assign chk fuel fu m sid s es ps e Hv Hi K Hf) as [m' [C D]].
  destruct (rec_writes fuel m e es sid ps (fun mk k _ => value fuel mk e k) (fun k _ => element fuel (recording lf [] e) k) K Hi) with (ps := ps) (k := 0%nat) (mk := m) as [m2 [l [E [F G]]]].
  - intros mk k p Sh Hk Hp. destruct (recording_element lf fuel mk e es k (expr_ok_shape _ _ _ _ _ Sh K) Hk) as [v [l [P [Q R]]]]. exists v, l. auto.
  - intros x Hx. exact Hx.
  - destruct Hv as [_ [_ [_ [_ [_ L]]]]]. cbn. lia.
  - reflexivity.
  - rewrite G in B. inversion B; subst w'. assert (m2 = m') by congruence. subst m2. destruct (memories_spec _ _ _ _ _ _ E) as [L1 L2].
    exists m', l, (memories sid (fun mk k _ => value fuel mk e k) 0 ps m). repeat split; auto.
Qed.
End Rec.

(** *** one function with a state of its own *)
Section Threaded.
Context {V St : Type}.
Notation mem := (@mem V).
Lemma stateful_keeps (f : V -> St -> V * St) : keeps1 (stateful f).
Proof. intros a m s. unfold stateful. cbn. destruct (f a s). reflexivity. Qed.

Theorem threaded_eval (f : V -> St -> V * St) chk fuel (m : mem) sid s es ps vs s0 : is_view fuel s es ps -> inside m sid ps -> elements fuel m (ELeaf sid s) es vs ->
  eeval chk (QUn (stateful f) (QLeaf sid s)) (m, s0) = Ok (es, fst (threaded f vs s0), (m, snd (threaded f vs s0))).
Proof.
  intros Hv Hi E. assert (K : eexpr_ok fuel m (QUn (stateful f) (QLeaf sid s)) es) by (constructor; [apply stateful_keeps|]; econstructor; eauto).
  assert (K' : expr_ok fuel m (ELeaf sid s) es) by (econstructor; eauto).
  destruct (eeval_spec chk fuel m s0 _ _ K) as [vs' [w' [-> [B _]]]].
  assert (Hvs := elements_values _ _ _ _ _ K' E). set (n := Z.to_nat (zprod es)) in *.
  assert (G : forall n k vs s1, map Some vs = map (value fuel m (ELeaf sid s)) (seq k n) ->
    one_by_one fuel (QUn (stateful f) (QLeaf sid s)) k n (m, s1) = Some (fst (threaded f vs s1), (m, snd (threaded f vs s1)))).
  { clear. induction n as [|n IH]; intros k [|v vs] s1 H; try discriminate; [reflexivity|]. inversion H as [[Hv H']]. cbn [one_by_one]. unfold element. cbn [calls operand].
    cbn [value] in Hv. cbn [fst] in *. rewrite <- Hv. cbn [threaded].
    assert (Es : stateful f v (m, s1) = (fst (f v s1), (m, snd (f v s1)))) by (unfold stateful; cbn; destruct (f v s1); reflexivity). rewrite Es.
    destruct (f v s1) as [r s'] eqn:Ef. cbn [fst snd operand].
    rewrite (IH (S k) vs s' H'). destruct (threaded f vs s') as [rs s'']. reflexivity. }
  rewrite (G n 0%nat vs s0 Hvs) in B. inversion B; subst. reflexivity.
Qed.

(** In place, through a view without repetition. *)
Theorem threaded_inplace (f : V -> St -> V * St) fuel fu (m : mem) sid s es ps vs s0 : is_view fuel s es ps -> inside m sid ps -> NoDup ps -> elements fuel m (ELeaf sid s) es vs -> (length ps < fu)%nat ->
  exists m', eview_update fu sid s (stateful f) (m, s0) = Ok (m', snd (threaded f vs s0)) /\ written m m' sid ps (nth_error (fst (threaded f vs s0))).
Proof.
  intros Hv Hi Nd E Hf. assert (K' : expr_ok fuel m (ELeaf sid s) es) by (econstructor; eauto).
  destruct (eview_update_spec fuel fu m s0 sid s es ps (stateful f) Hv Hi (stateful_keeps f) Hf) as [w' [-> B1]].
  assert (Hvs := elements_values _ _ _ _ _ K' E).
  assert (Hc : map Some vs = map (cell m sid) ps).
  { destruct Hv as [H1 [H2 [H3 [H4 [H5 H6]]]]]. rewrite Hvs. replace (Z.to_nat (zprod es)) with (length ps) by lia. clear -H2.
    cut (forall n k, (k + n = length ps)%nat -> map (value fuel m (ELeaf sid s)) (seq k n) = map (cell m sid) (skipn k ps)). { intros G. apply (G (length ps) 0%nat eq_refl). }
    induction n as [|n IH]; intros k Hk; cbn [seq map]; [rewrite skipn_all2 by lia; reflexivity|].
    destruct (nth_error ps k) as [p|] eqn:E; [|apply nth_error_None in E; lia]. rewrite (skipn_nth _ _ _ E). cbn [map]. rewrite <- IH by lia. f_equal. cbn. rewrite H2, E. reflexivity. }
  assert (G : forall qs k vs mk s1, incl qs ps -> NoDup qs -> same_shape m mk -> map Some vs = map (cell mk sid) qs -> exists m',
    writes_in_order sid (on_element sid (stateful f)) k qs (mk, s1) = Some (m', snd (threaded f vs s1)) /\ same_shape m m' /\
    (forall sid' p, 0 <= p -> sid' <> sid \/ ~ In p qs -> cell m' sid' p = cell mk sid' p) /\
    length (fst (threaded f vs s1)) = length qs /\
    (forall i p, nth_error qs i = Some p -> cell m' sid p = nth_error (fst (threaded f vs s1)) i)).
  { clear -Hi. induction qs as [|p qs IH]; intros k [|v vs] mk s1 Hin Nd Sh H; try discriminate.
    - exists mk. cbn. repeat split; auto. intros [|i] p; discriminate.
    - inversion H as [[Hv H']]. inversion Nd as [|? ? Np Nd']; subst. cbn [writes_in_order threaded]. unfold on_element at 1. cbn [fst]. rewrite <- Hv. unfold stateful at 1. cbn [fst snd].
      destruct (f v s1) as [r s'] eqn:Ef. cbn [fst snd].
      destruct (set_cell_spec mk sid ps p r (inside_shape _ _ _ _ Sh Hi) (Hin _ (or_introl eq_refl))) as [S1 [S2 S3]].
      assert (Hp : forall q, In q ps -> 0 <= q). { destruct Hi as [c [_ F]]. rewrite Forall_forall in F. intros q Hq. apply F in Hq. lia. }
      destruct (IH (S k) vs (set_cell mk sid p r) s' (fun x Hx => Hin x (or_intror Hx)) Nd' ltac:(unfold same_shape in *; congruence)) as [m' [A [B [C [L D]]]]].
      { rewrite H'. apply map_ext_in. intros q Hq. symmetry. apply S3; [apply Hp, Hin; right; auto|]. right. intros ->. auto. }
      destruct (threaded f vs s') as [rs s''] eqn:Et. cbn [fst snd] in *. exists m'. split; [exact A|]. split; [exact B|]. split; [|split; [cbn; lia|]].
      + intros sid' q Hq Hn. rewrite C; [apply S3; auto|auto|].
        * destruct Hn as [Hn|Hn]; [auto|]. right. intros ->. apply Hn. left. reflexivity.
        * destruct Hn as [Hn|Hn]; [auto|]. right. intros Hx. apply Hn. right. auto.
      + intros [|i] q Hq; cbn in Hq |- *; [|apply D; auto]. inversion Hq; subst q. rewrite C; [exact S2|apply Hp, Hin; left; auto|auto]. }
  destruct (G ps 0%nat vs m s0 (fun x Hx => Hx) Nd eq_refl Hc) as [m' [A [B [C [L D]]]]]. rewrite A in B1. inversion B1; subst w'. exists m'. split; [reflexivity|].
  unfold written. unfold same_shape in B. repeat split.
  - apply (f_equal (@length _)) in B. rewrite !map_length in B. auto.
  - intros sid' c Hc'. assert (X := f_equal (fun l => nth_error l sid') B). cbn beta in X. rewrite !nth_error_map, Hc' in X. destruct (nth_error m' sid') as [c'|]; cbn in X; [|discriminate].
    exists c'. split; [reflexivity|congruence].
  - exact C.
  - apply nth_error_Some. rewrite L. apply nth_error_Some. congruence.
  - apply D. auto.
Qed.
End Threaded.
