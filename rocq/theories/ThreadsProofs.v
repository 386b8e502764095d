(** * ThreadsProofs: every schedule of threads with constant vectors behaves as the values do. *)

From Coq Require Import List Bool Arith Lia.
From Verif Require Import Base Threads ThreadsSpec LifeProofs.
Import ListNotations.
Local Open Scope nat_scope.

(** ** sums *)
Fixpoint sumn {A} (f : A -> nat) (l : list A) : nat := match l with [] => 0 | x :: l' => f x + sumn f l' end.
Lemma sumn_app {A} (f : A -> nat) l r : sumn f (l ++ r) = sumn f l + sumn f r.
Proof. induction l as [|x l IH]; cbn; lia. Qed.
Lemma sumn_upd {A} (f : A -> nat) : forall l i x y, nth_error l i = Some x -> sumn f (upd_nat l i y) + f x = sumn f l + f y.
Proof. induction l as [|z l IH]; intros [|i] x y H; cbn in *; try discriminate; [injection H as ->; lia|]. specialize (IH i x y H). lia. Qed.
Lemma sumn_in {A} (f : A -> nat) l x : In x l -> f x <= sumn f l.
Proof. induction l as [|z l IH]; cbn; [intros []|]. intros [->|H]; [lia|]. specialize (IH H). lia. Qed.
Lemma sumn_zero {A} (f : A -> nat) l : sumn f l = 0 -> forall x, In x l -> f x = 0.
Proof. intros H x Hx. apply (sumn_in f) in Hx. lia. Qed.
Lemma sumn_pos {A} (f : A -> nat) l : 0 < sumn f l -> exists x, In x l /\ 0 < f x.
Proof.
  induction l as [|z l IH]; cbn; [lia|]. intros H. destruct (f z) eqn:E; [|exists z; split; [auto|lia]].
  destruct IH as [x [Hx Px]]; [lia|]. eauto.
Qed.
Lemma sumn_two {A} (f : A -> nat) : forall l t u x y, t <> u -> nth_error l t = Some x -> nth_error l u = Some y -> f x + f y <= sumn f l.
Proof.
  induction l as [|z l IH]; intros [|t] [|u] x y N Hx Hy; cbn in *; try discriminate; try lia.
  - injection Hx as ->. apply nth_error_In in Hy. apply (sumn_in f) in Hy. lia.
  - injection Hy as ->. apply nth_error_In in Hx. apply (sumn_in f) in Hx. lia.
  - specialize (IH t u x y ltac:(lia) Hx Hy). lia.
Qed.

Lemma upd_len {A} : forall (l : list A) i x, length (upd_nat l i x) = length l.
Proof. induction l as [|a l IH]; intros [|i] x; cbn; auto. Qed.
Lemma nth_upd {A} : forall (l : list A) i j x, nth_error (upd_nat l i x) j = if Nat.eqb i j then match nth_error l i with Some _ => Some x | None => None end else nth_error l j.
Proof.
  intros l i j x. destruct (Nat.eqb_spec i j) as [<-|N].
  - destruct (nth_error l i) eqn:E; [apply nth_error_upd_eq; apply nth_error_Some; congruence|].
    apply nth_error_None. apply nth_error_None in E. now rewrite upd_len.
  - now apply nth_error_upd_ne.
Qed.

(** ** lists related place by place *)
Definition rl {A B} (R : A -> B -> Prop) (l : list A) (l' : list B) : Prop :=
  forall i, match nth_error l i, nth_error l' i with Some x, Some y => R x y | None, None => True | _, _ => False end.
Lemma rl_nth {A B} (R : A -> B -> Prop) l l' i x : rl R l l' -> nth_error l i = Some x -> exists y, nth_error l' i = Some y /\ R x y.
Proof. intros H E. specialize (H i). rewrite E in H. destruct (nth_error l' i); [eauto|tauto]. Qed.
Lemma rl_nth_r {A B} (R : A -> B -> Prop) l l' i y : rl R l l' -> nth_error l' i = Some y -> exists x, nth_error l i = Some x /\ R x y.
Proof. intros H E. specialize (H i). rewrite E in H. destruct (nth_error l i); [eauto|tauto]. Qed.
Lemma rl_none {A B} (R : A -> B -> Prop) l l' i : rl R l l' -> nth_error l i = None -> nth_error l' i = None.
Proof. intros H E. specialize (H i). rewrite E in H. destruct (nth_error l' i); tauto. Qed.
Lemma rl_len {A B} (R : A -> B -> Prop) l l' : rl R l l' -> length l = length l'.
Proof.
  intros H. destruct (lt_eq_lt_dec (length l) (length l')) as [[L|E]|L]; [|exact E|].
  - specialize (H (length l)). rewrite (proj2 (nth_error_None l (length l)) (le_n _)) in H. destruct (nth_error l' (length l)) eqn:E; [tauto|]. apply nth_error_None in E. lia.
  - specialize (H (length l')). rewrite (proj2 (nth_error_None l' (length l')) (le_n _)) in H. destruct (nth_error l (length l')) eqn:E; [tauto|]. apply nth_error_None in E. lia.
Qed.
Lemma rl_upd {A B} (R R' : A -> B -> Prop) l l' i x y : rl R l l' -> R' x y ->
  (forall j a b, j <> i -> nth_error l j = Some a -> nth_error l' j = Some b -> R a b -> R' a b) -> rl R' (upd_nat l i x) (upd_nat l' i y).
Proof.
  intros H Hr Hw j. rewrite !nth_upd. destruct (Nat.eqb_spec i j) as [<-|N].
  - specialize (H i). destruct (nth_error l i), (nth_error l' i); tauto.
  - specialize (H j). specialize (Hw j). destruct (nth_error l j), (nth_error l' j); try tauto. apply Hw; auto.
Qed.
Lemma rl_impl {A B} (R R' : A -> B -> Prop) l l' : rl R l l' -> (forall j a b, nth_error l j = Some a -> nth_error l' j = Some b -> R a b -> R' a b) -> rl R' l l'.
Proof. intros H Hw j. specialize (H j). specialize (Hw j). destruct (nth_error l j), (nth_error l' j); try tauto. apply Hw; auto. Qed.
Lemma rl_snoc {A B} (R : A -> B -> Prop) l l' x y : rl R l l' -> R x y -> rl R (l ++ [x]) (l' ++ [y]).
Proof.
  intros H Hr j. assert (L := rl_len _ _ _ H). destruct (lt_eq_lt_dec j (length l)) as [[Lt|E]|Gt].
  - rewrite !nth_error_app1 by lia. apply H.
  - subst j. rewrite nth_error_app2 by lia. rewrite (nth_error_app2 l') by lia. replace (length l - length l) with 0 by lia.
    replace (length l - length l') with 0 by lia. exact Hr.
  - assert (E1 : nth_error (l ++ [x]) j = None) by (apply nth_error_None; rewrite app_length; cbn; lia).
    assert (E2 : nth_error (l' ++ [y]) j = None) by (apply nth_error_None; rewrite app_length; cbn; lia). now rewrite E1, E2.
Qed.
Lemma rl_upd_same {A B} (R : A -> B -> Prop) l l' i x y : rl R l l' -> R x y -> rl R (upd_nat l i x) (upd_nat l' i y).
Proof. intros H Hr. eapply rl_upd; eauto. Qed.

Section Proofs.
Variable T : Type.
Notation tblk := (tblk T).
Notation tst := (tst T).
Notation vst := (vst T).
Notation vthread := (vthread T).

(** ** references *)
Definition isb (b : nat) (p : option nat) : nat := match p with Some b' => if Nat.eqb b' b then 1 else 0 | None => 0 end.
Definition cnt (b : nat) (l : list (option nat)) : nat := sumn (isb b) l.
Definition isd (b : nat) (th : thread) : nat := match busy th with Destroying b' => if Nat.eqb b' b then 1 else 0 | _ => 0 end.
Definition refs (s : tst) (b : nat) : nat := sumn (fun th => cnt b (hs th)) (threads s) + cnt b (globals s).
Definition dstr (s : tst) (b : nat) : nat := sumn (isd b) (threads s).

(** ** the invariant *)
Definition hrel (h : list tblk) (p : option nat) (v : option (list T)) : Prop :=
  match p, v with
  | None, None => True
  | Some b, Some l => exists c, nth_error h b = Some (BLive l (S c))
  | _, _ => False
  end.
Definition brel (h : list tblk) (G : list (option nat)) (k : busyk) (v : option (nat * list T)) : Prop :=
  match k, v with
  | Copying g b, Some (g', l) => g = g' /\ nth_error G g = Some (Some b) /\ exists c, nth_error h b = Some (BLive l (S c))
  | Copying _ _, None => False
  | _, Some _ => False
  | _, None => True
  end.
Definition threl (h : list tblk) (G : list (option nat)) (th : thread) (v : vthread) : Prop :=
  rl (hrel h) (hs th) (vhs v) /\ brel h G (busy th) (vcopy v).
Definition counted (r d : nat) (x : option tblk) : Prop :=
  match x with Some (BLive _ c) => c = r /\ d = (if Nat.eqb c 0 then 1 else 0) | _ => r = 0 /\ d = 0 end.
Record Inv (s : tst) (a : vst) : Prop := {
  i_th : rl (threl (tmem s) (globals s)) (threads s) (vthreads a);
  i_gl : rl (hrel (tmem s)) (globals s) (vglobals a);
  i_cnt : forall b, counted (refs s b) (dstr s b) (nth_error (tmem s) b) }.


Lemma cnt_in b l : In (Some b) l -> 0 < cnt b l.
Proof. intros H. apply (sumn_in (isb b)) in H. cbn in H. rewrite Nat.eqb_refl in H. exact H. Qed.
Lemma in_cnt b l : 0 < cnt b l -> In (Some b) l.
Proof.
  intros H. apply sumn_pos in H as [p [Hp P]]. destruct p as [b'|]; cbn in P; [|lia]. destruct (Nat.eqb_spec b' b); [subst; auto|lia].
Qed.
Lemma refs_th s t th b : nth_error (threads s) t = Some th -> cnt b (hs th) + cnt b (globals s) <= refs s b.
Proof. intros H. apply nth_error_In in H. apply (sumn_in (fun th => cnt b (hs th))) in H. unfold refs. lia. Qed.
Lemma refs_two s t u th tu b : t <> u -> nth_error (threads s) t = Some th -> nth_error (threads s) u = Some tu ->
  cnt b (hs th) + cnt b (hs tu) + cnt b (globals s) <= refs s b.
Proof. intros N H H'. assert (X := sumn_two (fun th => cnt b (hs th)) _ _ _ _ _ N H H'). unfold refs. cbn beta in X. lia. Qed.

(** A step of one thread: [h'], [th'], [G'] are the memory, the thread and the shared variables after it.  Blocks to which there
    are still references keep their elements. *)
Definition keeps (s : tst) (th th' : thread) (G' : list (option nat)) (h' : list tblk) : Prop :=
  forall b l c, nth_error (tmem s) b = Some (BLive l (S c)) -> cnt b (hs th) + cnt b (globals s) < refs s b + cnt b (hs th') + cnt b G' ->
  exists c', nth_error h' b = Some (BLive l (S c')).

Lemma inv_step s a t th vt h' th' vt' G' VG' : Inv s a -> nth_error (threads s) t = Some th -> nth_error (vthreads a) t = Some vt ->
  keeps s th th' G' h' -> threl h' G' th' vt' -> rl (hrel h') G' VG' ->
  (forall u tu g b, u <> t -> nth_error (threads s) u = Some tu -> busy tu = Copying g b -> nth_error G' g = nth_error (globals s) g) ->
  (forall b, counted (refs s b + cnt b (hs th') + cnt b G' - cnt b (hs th) - cnt b (globals s)) (dstr s b + isd b th' - isd b th) (nth_error h' b)) ->
  Inv (TSt h' (upd_nat (threads s) t th') G') (VSt (upd_nat (vthreads a) t vt') VG').
Proof.
  intros I Et Ev K R RG F C. split; cbn [tmem threads globals vthreads vglobals].
  - eapply rl_upd; [apply (i_th _ _ I)|exact R|]. intros j x y N Ex Ey [H B]. split.
    + eapply rl_impl; [exact H|]. intros i p w Ep Ew. destruct p as [b|], w as [l|]; cbn; try tauto. intros [c Hc]. apply (K b l c Hc).
      apply nth_error_In in Ep. apply cnt_in in Ep. assert (X := refs_two s t j th x b ltac:(auto) Et Ex). lia.
    + specialize (F j x). destruct (busy x) as [|g b|b], (vcopy y) as [[g' l]|]; cbn in *; auto. destruct B as [-> [G [c Hc]]]. split; auto.
      specialize (F g' b N Ex eq_refl). rewrite F. split; auto. apply (K b l c Hc). rewrite <- F in G. apply nth_error_In in G. apply cnt_in in G.
      assert (X := refs_th s t th b Et). lia.
  - exact RG.
  - intros b. specialize (C b). unfold refs, dstr in *. cbn [tmem threads globals].
    assert (E1 := sumn_upd (fun th => cnt b (hs th)) (threads s) t th th' Et). assert (E2 := sumn_upd (isd b) (threads s) t th th' Et). cbn beta in E1.
    assert (L : cnt b (hs th) <= sumn (fun th => cnt b (hs th)) (threads s)) by (apply nth_error_In in Et; apply (sumn_in (fun th => cnt b (hs th))) in Et; exact Et).
    replace (sumn (fun th => cnt b (hs th)) (upd_nat (threads s) t th') + cnt b G')
      with (sumn (fun th => cnt b (hs th)) (threads s) + cnt b (globals s) + cnt b (hs th') + cnt b G' - cnt b (hs th) - cnt b (globals s)) by lia.
    replace (sumn (isd b) (upd_nat (threads s) t th')) with (sumn (isd b) (threads s) + isd b th' - isd b th) by lia. exact C.
Qed.

(** Elements of objects are kept. *)
Lemma keep_rel s th th' G' h' (l : list (option nat)) v : keeps s th th' G' h' -> rl (hrel (tmem s)) l v ->
  (forall b, In (Some b) l -> cnt b (hs th) + cnt b (globals s) < refs s b + cnt b (hs th') + cnt b G') -> rl (hrel h') l v.
Proof.
  intros K H B. eapply rl_impl; [exact H|]. intros i p w Ep Ew. destruct p as [b|], w as [x|]; cbn; try tauto. intros [c Hc].
  apply (K b x c Hc). apply B. eapply nth_error_In; eauto.
Qed.
Lemma keep_globals s t th th' h' v : keeps s th th' (globals s) h' -> nth_error (threads s) t = Some th -> rl (hrel (tmem s)) (globals s) v -> rl (hrel h') (globals s) v.
Proof. intros K E H. eapply keep_rel; eauto. intros b Hb. apply cnt_in in Hb. assert (X := refs_th s t th b E). lia. Qed.

(** The changes of memory. *)
Lemma keeps_id s th th' G' : keeps s th th' G' (tmem s).
Proof. intros b l c H _. eauto. Qed.
Lemma keeps_app s th th' G' x : keeps s th th' G' (tmem s ++ [x]).
Proof. intros b l c H _. exists c. rewrite nth_error_app1; auto. apply nth_error_Some. congruence. Qed.
Lemma keeps_upd s th th' G' b l c c' : nth_error (tmem s) b = Some (BLive l c) ->
  (c' = 0 -> refs s b + cnt b (hs th') + cnt b G' <= cnt b (hs th) + cnt b (globals s)) -> keeps s th th' G' (upd_nat (tmem s) b (BLive l c')).
Proof.
  intros H N b' l' c0 H' P. rewrite nth_upd. destruct (Nat.eqb_spec b b') as [<-|_]; [|eauto]. rewrite H. assert (l = l') by congruence. subst l'.
  destruct c' as [|c']; [lia|]. eauto.
Qed.
Lemma keeps_free s th th' G' b : refs s b + cnt b (hs th') + cnt b G' <= cnt b (hs th) + cnt b (globals s) -> keeps s th th' G' (upd_nat (tmem s) b BFreed).
Proof. intros N b' l' c0 H' P. rewrite nth_upd. destruct (Nat.eqb_spec b b') as [<-|_]; [lia|eauto]. Qed.

Lemma cnt_app b l p : cnt b (l ++ [p]) = cnt b l + isb b p.
Proof. unfold cnt. rewrite sumn_app. cbn. lia. Qed.
Lemma cnt_upd b l i p q : nth_error l i = Some p -> cnt b (upd_nat l i q) + isb b p = cnt b l + isb b q.
Proof. apply sumn_upd. Qed.
Lemma isd_idle b l : isd b (Th l Idle) = 0.
Proof. reflexivity. Qed.
Lemma isd_copying b l g c : isd b (Th l (Copying g c)) = 0.
Proof. reflexivity. Qed.
Lemma isd_of_idle b th : busy th = Idle -> isd b th = 0.
Proof. unfold isd. intros ->. reflexivity. Qed.

Lemma live_of s a b l c : Inv s a -> nth_error (tmem s) b = Some (BLive l c) -> refs s b = c /\ dstr s b = if Nat.eqb c 0 then 1 else 0.
Proof. intros I H. assert (X := i_cnt _ _ I b). rewrite H in X. cbn in X. lia. Qed.
Lemma isb_same b : isb b (Some b) = 1.
Proof. cbn. now rewrite Nat.eqb_refl. Qed.
Lemma isb_ne b b' : b' <> b -> isb b (Some b') = 0.
Proof. intros H. cbn. destruct (Nat.eqb_spec b' b); congruence. Qed.

(** A new reference to a block that has references. *)
Lemma counted_incr s a b l c : Inv s a -> nth_error (tmem s) b = Some (BLive l (S c)) -> forall b',
  counted (refs s b' + isb b' (Some b)) (dstr s b') (nth_error (upd_nat (tmem s) b (BLive l (S (S c)))) b').
Proof.
  intros I H b'. rewrite nth_upd. destruct (Nat.eqb_spec b b') as [<-|N].
  - rewrite H, isb_same. cbn. destruct (live_of _ _ _ _ _ I H) as [E1 E2]. cbn in E2. lia.
  - rewrite isb_ne by auto. rewrite Nat.add_0_r. apply (i_cnt _ _ I).
Qed.
(** One reference less, by a thread that destroys the vector if it was the last. *)
Lemma counted_decr s a b l c : Inv s a -> nth_error (tmem s) b = Some (BLive l (S c)) -> forall b',
  counted (refs s b' - isb b' (Some b)) (dstr s b' + if Nat.eqb c 0 then isb b' (Some b) else 0) (nth_error (upd_nat (tmem s) b (BLive l c)) b').
Proof.
  intros I H b'. rewrite nth_upd. destruct (Nat.eqb_spec b b') as [<-|N].
  - rewrite H, isb_same. cbn [counted]. destruct (live_of _ _ _ _ _ I H) as [E1 E2]. cbn in E2. destruct (Nat.eqb c 0); lia.
  - rewrite isb_ne by auto. rewrite Nat.sub_0_r. destruct (Nat.eqb c 0); rewrite Nat.add_0_r; apply (i_cnt _ _ I).
Qed.
Lemma isd_decr b b' l c : isd b' (Th l (if Nat.eqb c 0 then Destroying b else Idle)) = if Nat.eqb c 0 then isb b' (Some b) else 0.
Proof. destruct (Nat.eqb c 0); reflexivity. Qed.

Ltac thr := match goal with |- threl _ _ (Th _ _) (VTh _ _) => split; cbn [hs vhs busy vcopy brel] end.
Ltac same_globals := intros; reflexivity.

Theorem step_values s a t o a' : Inv s a -> vstep t o a = Some a' -> tstep t o s = None \/ exists s', tstep t o s = Some (Ok s') /\ Inv s' a'.
Proof.
  intros I. unfold vstep, tstep. destruct (nth_error (vthreads a) t) as [vt|] eqn:Ev; [|discriminate].
  destruct (rl_nth_r _ _ _ _ _ (i_th _ _ I) Ev) as [th [Et [Rh Rb]]]. rewrite Et.
  destruct (vcopy vt) as [[g l]|] eqn:Ec.
  { (* copying a shared variable *)
    destruct o; try discriminate. intros [= <-]. destruct (busy th) as [|g' b|b] eqn:Eb; cbn in Rb; try tauto. destruct Rb as [-> [Hg [c Hc]]].
    right. unfold tincr. rewrite Hc. cbn [bindO]. eexists. split; [reflexivity|].
    assert (K : keeps s th (Th (hs th ++ [Some b]) Idle) (globals s) (upd_nat (tmem s) b (BLive l (S (S c))))) by (eapply keeps_upd; [exact Hc|lia]).
    eapply inv_step; [exact I|exact Et|exact Ev|exact K| | |first [same_globals|assumption]|].
    - thr; [|exact Logic.I]. apply rl_snoc; [eapply keep_rel; [exact K|exact Rh|]|].
      + intros b0 Hb. cbn [hs]. rewrite cnt_app. apply cnt_in in Hb. assert (X := refs_th s t th b0 Et). lia.
      + cbn. rewrite nth_upd, Nat.eqb_refl, Hc. eauto.
    - eapply keep_globals; [exact K|exact Et|apply (i_gl _ _ I)].
    - intros b'. cbn [hs]. rewrite cnt_app, isd_idle. assert (D : isd b' th = 0) by (unfold isd; now rewrite Eb). rewrite D.
      assert (X := refs_th s t th b' Et). replace (refs s b' + (cnt b' (hs th) + isb b' (Some b)) + cnt b' (globals s) - cnt b' (hs th) - cnt b' (globals s))
        with (refs s b' + isb b' (Some b)) by lia. replace (dstr s b' + 0 - 0) with (dstr s b') by lia. eapply counted_incr; eauto. }
  (* idle, or about to destroy a vector *)
  assert (B : busy th = Idle \/ exists b, busy th = Destroying b) by (destruct (busy th); cbn in Rb; [auto|tauto|eauto]).
  destruct B as [B|[b B]].
  2: { rewrite B. destruct o; try (left; reflexivity). intros [= <-]. right.
       assert (Hb : exists l, nth_error (tmem s) b = Some (BLive l 0) /\ refs s b = 0 /\ dstr s b = 1).
       { assert (D : 0 < dstr s b). { unfold dstr. apply nth_error_In in Et. apply (sumn_in (isd b)) in Et. unfold isd at 1 in Et. rewrite B, Nat.eqb_refl in Et. exact Et. }
         assert (C := i_cnt _ _ I b). destruct (nth_error (tmem s) b) as [[l c|]|]; cbn in C; try lia. destruct c as [|c]; cbn in C; [|lia]. exists l. split; [reflexivity|]. lia. }
       destruct Hb as [l [Hb [R0 D1]]]. unfold tdestroy. rewrite Hb. cbn [bindO]. eexists. split; [reflexivity|].
       assert (X := refs_th s t th b Et).
       assert (K : keeps s th (Th (hs th) Idle) (globals s) (upd_nat (tmem s) b BFreed)) by (apply keeps_free; cbn [hs]; lia).
       assert (Ea : a = VSt (upd_nat (vthreads a) t vt) (vglobals a)) by (rewrite (upd_same _ _ _ Ev); destruct a; reflexivity). rewrite Ea.
       eapply inv_step; [exact I|exact Et|exact Ev|exact K| | |first [same_globals|assumption]|].
       - split; cbn [hs busy]; [|rewrite Ec; exact Logic.I]. eapply keep_rel; [exact K|exact Rh|]. intros b0 Hb0. cbn [hs]. apply cnt_in in Hb0.
         assert (X0 := refs_th s t th b0 Et). lia.
       - eapply keep_globals; [exact K|exact Et|apply (i_gl _ _ I)].
       - intros b'. cbn [hs]. rewrite isd_idle. assert (X0 := refs_th s t th b' Et). unfold isd. rewrite B. rewrite nth_upd. destruct (Nat.eqb_spec b b') as [<-|N].
         + rewrite Hb. cbn [counted]. lia.
         + replace (refs s b' + cnt b' (hs th) + cnt b' (globals s) - cnt b' (hs th) - cnt b' (globals s)) with (refs s b') by lia.
           replace (dstr s b' + 0 - 0) with (dstr s b') by lia. apply (i_cnt _ _ I). }
  rewrite B. assert (D : forall b', isd b' th = 0) by (intros; now apply isd_of_idle). destruct o as [l|i|g| |i|i j|i|g| |i u]; try discriminate.
  - (* TNew *)
    intros [= <-]. right. eexists. split; [reflexivity|].
    assert (K := keeps_app s th (Th (hs th ++ [Some (length (tmem s))]) Idle) (globals s) (BLive l 1)).
    eapply inv_step; [exact I|exact Et|exact Ev|exact K| | |first [same_globals|assumption]|].
    + thr; [|exact Logic.I]. apply rl_snoc; [eapply keep_rel; [exact K|exact Rh|]|].
      * intros b0 Hb. cbn [hs]. rewrite cnt_app. apply cnt_in in Hb. assert (X := refs_th s t th b0 Et). lia.
      * cbn. rewrite nth_error_app2, Nat.sub_diag by lia. cbn. eauto.
    + eapply keep_globals; [exact K|exact Et|apply (i_gl _ _ I)].
    + intros b'. cbn [hs]. rewrite cnt_app, isd_idle, D. assert (X := refs_th s t th b' Et).
      replace (refs s b' + (cnt b' (hs th) + isb b' (Some (length (tmem s)))) + cnt b' (globals s) - cnt b' (hs th) - cnt b' (globals s)) with (refs s b' + isb b' (Some (length (tmem s)))) by lia.
      replace (dstr s b' + 0 - 0) with (dstr s b') by lia. assert (C := i_cnt _ _ I b').
      destruct (lt_eq_lt_dec b' (length (tmem s))) as [[L|E]|L].
      * rewrite nth_error_app1 by lia. rewrite isb_ne by lia. now rewrite Nat.add_0_r.
      * subst b'. rewrite isb_same. rewrite nth_error_app2, Nat.sub_diag by lia. cbn. rewrite (proj2 (nth_error_None _ _)) in C by lia. cbn in C. lia.
      * rewrite isb_ne by lia. rewrite (proj2 (nth_error_None (tmem s) b')) in C by lia. rewrite (proj2 (nth_error_None (tmem s ++ [BLive l 1]) b')) by (rewrite app_length; cbn; lia). cbn in *. lia.
  - (* TCopy *)
    destruct (nth_error (vhs vt) i) as [[l|]|] eqn:Ei; try discriminate. intros [= <-]. right.
    destruct (rl_nth_r _ _ _ _ _ Rh Ei) as [p [Ep Hp]]. rewrite Ep. destruct p as [b|]; cbn in Hp; [|tauto]. destruct Hp as [c Hc].
    unfold tincr. rewrite Hc. cbn [bindO]. eexists. split; [reflexivity|].
    assert (K : keeps s th (Th (hs th ++ [Some b]) Idle) (globals s) (upd_nat (tmem s) b (BLive l (S (S c))))) by (eapply keeps_upd; [exact Hc|lia]).
    eapply inv_step; [exact I|exact Et|exact Ev|exact K| | |first [same_globals|assumption]|].
    + thr; [|exact Logic.I]. apply rl_snoc; [eapply keep_rel; [exact K|exact Rh|]|].
      * intros b0 Hb. cbn [hs]. rewrite cnt_app. apply cnt_in in Hb. assert (X := refs_th s t th b0 Et). lia.
      * cbn. rewrite nth_upd, Nat.eqb_refl, Hc. eauto.
    + eapply keep_globals; [exact K|exact Et|apply (i_gl _ _ I)].
    + intros b'. cbn [hs]. rewrite cnt_app, isd_idle, D. assert (X := refs_th s t th b' Et).
      replace (refs s b' + (cnt b' (hs th) + isb b' (Some b)) + cnt b' (globals s) - cnt b' (hs th) - cnt b' (globals s)) with (refs s b' + isb b' (Some b)) by lia.
      replace (dstr s b' + 0 - 0) with (dstr s b') by lia. eapply counted_incr; eauto.
  - (* TBeginCopy *)
    destruct (nth_error (vglobals a) g) as [[l|]|] eqn:Eg; try discriminate. intros [= <-]. right.
    destruct (rl_nth_r _ _ _ _ _ (i_gl _ _ I) Eg) as [p [Ep Hp]]. rewrite Ep. destruct p as [b|]; cbn in Hp; [|tauto]. destruct Hp as [c Hc].
    eexists. split; [reflexivity|].
    assert (K := keeps_id s th (Th (hs th) (Copying g b)) (globals s)).
    eapply inv_step; [exact I|exact Et|exact Ev|exact K| | |first [same_globals|assumption]|].
    + thr; [exact Rh|]. eauto.
    + apply (i_gl _ _ I).
    + intros b'. cbn [hs]. rewrite isd_copying, D. assert (X := refs_th s t th b' Et).
      replace (refs s b' + cnt b' (hs th) + cnt b' (globals s) - cnt b' (hs th) - cnt b' (globals s)) with (refs s b') by lia.
      replace (dstr s b' + 0 - 0) with (dstr s b') by lia. apply (i_cnt _ _ I).
  - (* TMove *)
    destruct (nth_error (vhs vt) i) as [v|] eqn:Ei; try discriminate. intros [= <-]. right.
    destruct (rl_nth_r _ _ _ _ _ Rh Ei) as [p [Ep Hp]]. rewrite Ep. eexists. split; [reflexivity|].
    assert (K := keeps_id s th (Th (upd_nat (hs th) i None ++ [p]) Idle) (globals s)).
    eapply inv_step; [exact I|exact Et|exact Ev|exact K| | |first [same_globals|assumption]|].
    + thr; [|exact Logic.I]. apply rl_snoc; [apply rl_upd_same; [exact Rh|exact Logic.I]|exact Hp].
    + apply (i_gl _ _ I).
    + intros b'. cbn [hs]. rewrite isd_idle, D. assert (X := refs_th s t th b' Et). rewrite cnt_app. assert (Y := cnt_upd b' _ _ _ None Ep). cbn [isb] in Y.
      replace (refs s b' + (cnt b' (upd_nat (hs th) i None) + isb b' p) + cnt b' (globals s) - cnt b' (hs th) - cnt b' (globals s)) with (refs s b') by lia.
      replace (dstr s b' + 0 - 0) with (dstr s b') by lia. apply (i_cnt _ _ I).
  - (* TSwap *)
    destruct (nth_error (vhs vt) i) as [v|] eqn:Ei; try discriminate. destruct (nth_error (vhs vt) j) as [w|] eqn:Ej; try discriminate. intros [= <-]. right.
    destruct (rl_nth_r _ _ _ _ _ Rh Ei) as [p [Ep Hp]]. destruct (rl_nth_r _ _ _ _ _ Rh Ej) as [q [Eq Hq]]. rewrite Ep, Eq. eexists. split; [reflexivity|].
    assert (K := keeps_id s th (Th (upd_nat (upd_nat (hs th) i q) j p) Idle) (globals s)).
    eapply inv_step; [exact I|exact Et|exact Ev|exact K| | |first [same_globals|assumption]|].
    + thr; [|exact Logic.I]. apply rl_upd_same; [apply rl_upd_same; [exact Rh|exact Hq]|exact Hp].
    + apply (i_gl _ _ I).
    + intros b'. cbn [hs]. rewrite isd_idle, D. assert (X := refs_th s t th b' Et). assert (Y := cnt_upd b' _ _ _ q Ep).
      assert (Z : cnt b' (upd_nat (upd_nat (hs th) i q) j p) = cnt b' (hs th)).
      { destruct (Nat.eq_dec i j) as [<-|N].
        - assert (p = q) by congruence. subst q. rewrite upd_upd, (upd_same _ _ _ Ep). reflexivity.
        - assert (Ej' : nth_error (upd_nat (hs th) i q) j = Some q) by (rewrite nth_upd; destruct (Nat.eqb_spec i j); congruence).
          assert (Y' := cnt_upd b' _ _ _ p Ej'). lia. }
      rewrite Z. replace (refs s b' + cnt b' (hs th) + cnt b' (globals s) - cnt b' (hs th) - cnt b' (globals s)) with (refs s b') by lia.
      replace (dstr s b' + 0 - 0) with (dstr s b') by lia. apply (i_cnt _ _ I).
  - (* TDrop *)
    destruct (nth_error (vhs vt) i) as [v|] eqn:Ei; try discriminate. intros [= <-]. right.
    destruct (rl_nth_r _ _ _ _ _ Rh Ei) as [p [Ep Hp]]. rewrite Ep. destruct p as [b|]; cbn [tdrop].
    + destruct v as [l|]; cbn in Hp; [|tauto]. destruct Hp as [c Hc]. unfold tdecr. rewrite Hc. cbn [bindO fst snd]. eexists. split; [reflexivity|].
      assert (Y : forall b', cnt b' (upd_nat (hs th) i None) + isb b' (Some b) = cnt b' (hs th)) by (intros b'; assert (Y := cnt_upd b' _ _ _ None Ep); cbn [isb] in *; lia).
      assert (K : keeps s th (Th (upd_nat (hs th) i None) (if Nat.eqb c 0 then Destroying b else Idle)) (globals s) (upd_nat (tmem s) b (BLive l c))).
      { eapply keeps_upd; [exact Hc|]. intros ->. cbn [hs]. destruct (live_of _ _ _ _ _ I Hc) as [E1 _]. specialize (Y b). rewrite isb_same in Y. lia. }
      eapply inv_step; [exact I|exact Et|exact Ev|exact K| | |first [same_globals|assumption]|].
      * thr; [|destruct (Nat.eqb c 0); exact Logic.I]. eapply keep_rel; [exact K| |].
        -- apply rl_upd_same; [exact Rh|exact Logic.I].
        -- intros b0 Hb. cbn [hs]. apply cnt_in in Hb. assert (X := refs_th s t th b0 Et). lia.
      * eapply keep_globals; [exact K|exact Et|apply (i_gl _ _ I)].
      * intros b'. cbn [hs]. rewrite isd_decr, D. assert (X := refs_th s t th b' Et). specialize (Y b').
        replace (refs s b' + cnt b' (upd_nat (hs th) i None) + cnt b' (globals s) - cnt b' (hs th) - cnt b' (globals s)) with (refs s b' - isb b' (Some b)) by lia.
        rewrite Nat.sub_0_r. eapply counted_decr; eauto.
    + destruct v as [l|]; cbn in Hp; [tauto|]. cbn [bindO fst snd]. eexists. split; [reflexivity|].
      assert (K := keeps_id s th (Th (upd_nat (hs th) i None) Idle) (globals s)).
      eapply inv_step; [exact I|exact Et|exact Ev|exact K| | |first [same_globals|assumption]|].
      * thr; [|exact Logic.I]. apply rl_upd_same; [exact Rh|exact Logic.I].
      * apply (i_gl _ _ I).
      * intros b'. cbn [hs]. rewrite isd_idle, D. assert (X := refs_th s t th b' Et). rewrite (upd_same _ _ _ Ep).
        replace (refs s b' + cnt b' (hs th) + cnt b' (globals s) - cnt b' (hs th) - cnt b' (globals s)) with (refs s b') by lia.
        replace (dstr s b' + 0 - 0) with (dstr s b') by lia. apply (i_cnt _ _ I).
  - (* TDropGlobal *)
    destruct (nth_error (vglobals a) g) as [v|] eqn:Eg; try discriminate. destruct (existsb (copying T g) (vthreads a)) eqn:Ex; try discriminate. intros [= <-]. right.
    destruct (rl_nth_r _ _ _ _ _ (i_gl _ _ I) Eg) as [p [Ep Hp]]. rewrite Ep.
    assert (F : forall u tu g' b, u <> t -> nth_error (threads s) u = Some tu -> busy tu = Copying g' b -> nth_error (upd_nat (globals s) g None) g' = nth_error (globals s) g').
    { intros u tu g' b N Eu Eb. rewrite nth_upd. destruct (Nat.eqb_spec g g') as [<-|]; [|reflexivity]. exfalso.
      destruct (rl_nth _ _ _ _ _ (i_th _ _ I) Eu) as [vu [Evu [_ Rbu]]]. rewrite Eb in Rbu. cbn in Rbu. destruct (vcopy vu) as [[g' l]|] eqn:Evc; [|tauto]. destruct Rbu as [-> _].
      apply nth_error_In in Evu. assert (E : existsb (copying T g') (vthreads a) = true) by (apply existsb_exists; exists vu; split; auto; unfold copying; now rewrite Evc, Nat.eqb_refl).
      congruence. }
    assert (Ea : VSt (vthreads a) (upd_nat (vglobals a) g None) = VSt (upd_nat (vthreads a) t vt) (upd_nat (vglobals a) g None)) by (now rewrite (upd_same _ _ _ Ev)). rewrite Ea.
    destruct p as [b|]; cbn [tdrop].
    + destruct v as [l|]; cbn in Hp; [|tauto]. destruct Hp as [c Hc]. unfold tdecr. rewrite Hc. cbn [bindO fst snd]. eexists. split; [reflexivity|].
      assert (Y : forall b', cnt b' (upd_nat (globals s) g None) + isb b' (Some b) = cnt b' (globals s)) by (intros b'; assert (Y := cnt_upd b' _ _ _ None Ep); cbn [isb] in *; lia).
      assert (K : keeps s th (Th (hs th) (if Nat.eqb c 0 then Destroying b else Idle)) (upd_nat (globals s) g None) (upd_nat (tmem s) b (BLive l c))).
      { eapply keeps_upd; [exact Hc|]. intros ->. cbn [hs]. destruct (live_of _ _ _ _ _ I Hc) as [E1 _]. specialize (Y b). rewrite isb_same in Y. lia. }
      eapply inv_step; [exact I|exact Et|exact Ev|exact K| | |first [same_globals|assumption]|].
      * split; cbn [hs busy]; [|rewrite Ec; destruct (Nat.eqb c 0); exact Logic.I]. eapply keep_rel; [exact K|exact Rh|].
        intros b0 Hb. cbn [hs]. apply cnt_in in Hb. assert (X := refs_th s t th b0 Et). lia.
      * eapply keep_rel; [exact K| |].
        -- apply rl_upd_same; [apply (i_gl _ _ I)|exact Logic.I].
        -- intros b0 Hb. cbn [hs]. apply cnt_in in Hb. assert (X := refs_th s t th b0 Et). lia.
      * intros b'. cbn [hs]. rewrite isd_decr, D. assert (X := refs_th s t th b' Et). specialize (Y b').
        replace (refs s b' + cnt b' (hs th) + cnt b' (upd_nat (globals s) g None) - cnt b' (hs th) - cnt b' (globals s)) with (refs s b' - isb b' (Some b)) by lia.
        rewrite Nat.sub_0_r. eapply counted_decr; eauto.
    + destruct v as [l|]; cbn in Hp; [tauto|]. cbn [bindO fst snd]. eexists. split; [reflexivity|].
      assert (K := keeps_id s th (Th (hs th) Idle) (upd_nat (globals s) g None)).
      eapply inv_step; [exact I|exact Et|exact Ev|exact K| | |first [same_globals|assumption]|].
      * split; cbn [hs busy]; [exact Rh|rewrite Ec; exact Logic.I].
      * apply rl_upd_same; [apply (i_gl _ _ I)|exact Logic.I].
      * intros b'. cbn [hs]. rewrite isd_idle, D. assert (X := refs_th s t th b' Et). rewrite (upd_same _ _ _ Ep).
        replace (refs s b' + cnt b' (hs th) + cnt b' (globals s) - cnt b' (hs th) - cnt b' (globals s)) with (refs s b') by lia.
        replace (dstr s b' + 0 - 0) with (dstr s b') by lia. apply (i_cnt _ _ I).
  - (* TDestroy *) left; reflexivity.
  - (* TSend *)
    destruct (nth_error (vhs vt) i) as [v|] eqn:Ei; try discriminate. destruct (nth_error (vthreads a) u) as [vu|] eqn:Evu; try discriminate.
    destruct (rl_nth_r _ _ _ _ _ Rh Ei) as [p [Ep Hp]]. destruct (rl_nth_r _ _ _ _ _ (i_th _ _ I) Evu) as [tu [Eu [Rhu Rbu]]]. rewrite Ep, Eu.
    destruct (Nat.eqb_spec t u) as [<-|N]; intros [= <-]; right; (eexists; split; [reflexivity|]).
    + assert (K := keeps_id s th (Th (upd_nat (hs th) i None ++ [p]) Idle) (globals s)).
      eapply inv_step; [exact I|exact Et|exact Ev|exact K| | |first [same_globals|assumption]|].
      * thr; [|exact Logic.I]. apply rl_snoc; [apply rl_upd_same; [exact Rh|exact Logic.I]|exact Hp].
      * apply (i_gl _ _ I).
      * intros b'. cbn [hs]. rewrite isd_idle, D. assert (X := refs_th s t th b' Et). rewrite cnt_app. assert (Y := cnt_upd b' _ _ _ None Ep). cbn [isb] in Y.
        replace (refs s b' + (cnt b' (upd_nat (hs th) i None) + isb b' p) + cnt b' (globals s) - cnt b' (hs th) - cnt b' (globals s)) with (refs s b') by lia.
        replace (dstr s b' + 0 - 0) with (dstr s b') by lia. apply (i_cnt _ _ I).
    + split; cbn [tmem threads globals vthreads vglobals].
      * apply rl_upd_same; [apply rl_upd_same; [apply (i_th _ _ I)|]|].
        -- thr; [|exact Logic.I]. apply rl_upd_same; [exact Rh|exact Logic.I].
        -- split; cbn [hs busy vhs vcopy]; [apply rl_snoc; auto|exact Rbu].
      * apply (i_gl _ _ I).
      * intros b'. assert (C := i_cnt _ _ I b'). unfold refs, dstr in *. cbn [tmem threads globals].
        assert (Eu' : nth_error (upd_nat (threads s) t (Th (upd_nat (hs th) i None) Idle)) u = Some tu) by (rewrite nth_upd; destruct (Nat.eqb_spec t u); congruence).
        assert (S1 := sumn_upd (fun th => cnt b' (hs th)) _ _ _ (Th (upd_nat (hs th) i None) Idle) Et).
        assert (S2 := sumn_upd (fun th => cnt b' (hs th)) _ _ _ (Th (hs tu ++ [p]) (busy tu)) Eu').
        assert (S3 := sumn_upd (isd b') _ _ _ (Th (upd_nat (hs th) i None) Idle) Et).
        assert (S4 := sumn_upd (isd b') _ _ _ (Th (hs tu ++ [p]) (busy tu)) Eu').
        cbn beta in S1, S2. cbn [hs] in S1, S2. rewrite cnt_app in S2. assert (Y := cnt_upd b' _ _ _ None Ep). cbn [isb] in Y. rewrite isd_idle, D in S3.
        assert (Dt : isd b' (Th (hs tu ++ [p]) (busy tu)) = isd b' tu) by reflexivity. rewrite Dt in S4.
        match goal with |- counted ?r ?d _ => match type of C with counted ?r' ?d' _ => replace r with r' by lia; replace d with d' by lia end end. exact C.
Qed.

(** Every schedule. *)
Theorem run_values : forall sch s a a', Inv s a -> vrun sch a = Some a' -> trun sch s = None \/ exists s', trun sch s = Some (Ok s') /\ Inv s' a'.
Proof.
  induction sch as [|[t o] sch IH]; intros s a a' I; cbn.
  - intros [= <-]. eauto.
  - destruct (vstep t o a) as [a1|] eqn:E; [|discriminate]. intros H. destruct (step_values _ _ _ _ _ I E) as [->|[s1 [-> I1]]]; [auto|]. eapply IH; eauto.
Qed.

Lemma inv_init n (gs : list (list T)) : Inv (tinit n gs) (vinit n gs).
Proof.
  unfold tinit, vinit. split; cbn [tmem threads globals vthreads vglobals].
  - intros i. destruct (lt_dec i n) as [L|L].
    + rewrite !nth_error_repeat by lia. split; [intros [|j]; exact I|exact I].
    + rewrite !(proj2 (nth_error_None _ _)) by (rewrite repeat_length; lia). exact I.
  - intros i. rewrite !nth_error_map. destruct (nth_error gs i) as [l|] eqn:E.
    + assert (L : i < length gs) by (apply nth_error_Some; congruence). rewrite nth_error_nth' with (d := 0) by (rewrite seq_length; lia). rewrite seq_nth by lia. cbn.
      rewrite nth_error_map, E. exists 0. reflexivity.
    + apply nth_error_None in E. rewrite (proj2 (nth_error_None _ _)) by (rewrite seq_length; lia). exact I.
  - intros b. unfold refs, dstr. cbn [tmem threads globals].
    assert (E1 : sumn (fun th => cnt b (hs th)) (repeat (Th [] Idle) n) = 0) by (induction n; cbn; auto).
    assert (E2 : sumn (isd b) (repeat (Th [] Idle) n) = 0) by (induction n; cbn; auto). rewrite E1, E2.
    assert (E3 : forall k m, cnt b (map Some (seq k m)) = if (k <=? b) && (b <? k + m) then 1 else 0).
    { intros k m. revert k. induction m as [|m IH]; intros k.
      - change (cnt b (map Some (seq k 0))) with 0. destruct (Nat.leb_spec k b), (Nat.ltb_spec b (k + 0)); cbn; lia.
      - cbn [seq map]. unfold cnt in *. cbn [sumn isb]. rewrite IH.
        destruct (Nat.eqb_spec k b), (Nat.leb_spec (S k) b), (Nat.ltb_spec b (S k + m)), (Nat.leb_spec k b), (Nat.ltb_spec b (k + S m)); cbn; lia. }
    rewrite E3, nth_error_map. change (0 <=? b) with true. cbn [andb]. destruct (nth_error gs b) eqn:E; cbn [option_map counted].
    + assert (L : b < length gs) by (apply nth_error_Some; congruence). rewrite (proj2 (Nat.ltb_lt b (0 + length gs))) by lia. auto.
    + apply nth_error_None in E. rewrite (proj2 (Nat.ltb_ge b (0 + length gs))) by lia. auto.
Qed.

(** What the invariant says about objects. *)
Lemma inv_own s a t i l : Inv s a -> vown a t i = Some l -> own s t i = Ok l.
Proof.
  intros I0 H. unfold vown, own in *. destruct (nth_error (vthreads a) t) as [vt|] eqn:Ev; [|discriminate]. destruct (rl_nth_r _ _ _ _ _ (i_th _ _ I0) Ev) as [th [-> [Rh _]]].
  destruct (nth_error (vhs vt) i) as [[l'|]|] eqn:Ei; try discriminate. injection H as ->. destruct (rl_nth_r _ _ _ _ _ Rh Ei) as [p [-> Hp]].
  destruct p as [b|]; cbn in Hp; [|tauto]. destruct Hp as [c Hc]. cbn. now rewrite Hc.
Qed.
Lemma inv_global s a g l : Inv s a -> vglobal a g = Some l -> global s g = Ok l.
Proof.
  intros I0 H. unfold vglobal, global in *. destruct (nth_error (vglobals a) g) as [[l'|]|] eqn:Ev; try discriminate. injection H as ->.
  destruct (rl_nth_r _ _ _ _ _ (i_gl _ _ I0) Ev) as [p [-> Hp]]. destruct p as [b|]; cbn in Hp; [|tauto]. destruct Hp as [c Hc]. cbn. now rewrite Hc.
Qed.
Lemma refers_refs s b : refers s b <-> 0 < refs s b.
Proof.
  unfold refers, refs. split.
  - intros [H|[th [H H']]]; [apply cnt_in in H; lia|]. apply cnt_in in H'. apply (sumn_in (fun th => cnt b (hs th))) in H. lia.
  - intros H. destruct (cnt b (globals s)) eqn:E; [|left; apply in_cnt; lia]. right. rewrite Nat.add_0_r in H. apply sumn_pos in H as [th [Hth P]]. exists th. split; auto. now apply in_cnt.
Qed.
Lemma inv_freed s a b : Inv s a -> b < length (tmem s) ->
  (nth_error (tmem s) b = Some BFreed <-> ~ refers s b /\ forall th, In th (threads s) -> busy th <> Destroying b).
Proof.
  intros I0 L. assert (C := i_cnt _ _ I0 b). rewrite refers_refs. split.
  - intros E. rewrite E in C. cbn in C. split; [lia|]. intros th Hth Eb. destruct C as [_ C]. assert (X := sumn_zero _ _ C th Hth). unfold isd in X. rewrite Eb, Nat.eqb_refl in X. discriminate.
  - intros [N Nd]. destruct (nth_error (tmem s) b) as [[l c|]|] eqn:E; [|reflexivity|apply nth_error_None in E; lia]. exfalso. cbn in C. destruct C as [-> C].
    assert (Z0 : refs s b = 0) by lia. rewrite Z0 in C. cbn in C. assert (P : 0 < dstr s b) by lia. apply sumn_pos in P as [th [Hth P]]. unfold isd in P.
    specialize (Nd th Hth). destruct (busy th) as [| |b']; try lia. destruct (Nat.eqb_spec b' b); [subst; congruence|lia].
Qed.
Lemma inv_busy s a t th : Inv s a -> nth_error (threads s) t = Some th ->
  match busy th with
  | Idle => True
  | Copying g b => exists s', tstep t TEndCopy s = Some (Ok s')
  | Destroying b => exists s', tstep t TDestroy s = Some (Ok s')
  end.
Proof.
  intros I0 Et. destruct (rl_nth _ _ _ _ _ (i_th _ _ I0) Et) as [vt [Ev [Rh Rb]]]. destruct (busy th) as [|g b|b] eqn:B; auto.
  - cbn in Rb. destruct (vcopy vt) as [[g' l]|]; [|tauto]. destruct Rb as [-> [Hg [c Hc]]]. unfold tstep. rewrite Et, B. unfold tincr. rewrite Hc. eexists. reflexivity.
  - assert (D : 0 < dstr s b). { unfold dstr. apply nth_error_In in Et. apply (sumn_in (isd b)) in Et. unfold isd at 1 in Et. rewrite B, Nat.eqb_refl in Et. exact Et. }
    assert (C := i_cnt _ _ I0 b). unfold tstep. rewrite Et, B. unfold tdestroy. destruct (nth_error (tmem s) b) as [[l c|]|]; cbn in C; try lia. eexists. reflexivity.
Qed.
End Proofs.
