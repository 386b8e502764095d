(** * ViewThreadsProofs: proofs about ViewThreads. *)

From Coq Require Import ZArith List Bool Lia Arith.
From Verif Require Import Base Spec Desc Slice SliceSpec Expr ExprSpec Lemmas DescProofs LifeProofs RunProofs ViewThms ExprProofs ExprThms ExprSeq ArrAssign ViewThreads.
Import ListNotations.
Open Scope Z_scope.

Section Proofs.
Context {V : Type}.
Notation mem := (@mem V).
Notation expr := (@expr V).
Notation prog := (@prog V).
Implicit Types (m : mem) (e : expr) (P Q : prog) (R W : nat * Z -> Prop).

(** ** memory *)
Definition there (m : mem) (sid : nat) (p : Z) : Prop := inside m sid [p].
Lemma there_load m sid p : there m sid p -> exists v, load m sid p = Ok v.
Proof. intros H. destruct (load_inside m sid [p] p H ltac:(left; reflexivity)) as [v [E _]]. eauto. Qed.
Lemma there_store m sid p v : there m sid p -> store m sid p v = Ok (set_cell m sid p v) /\ same_shape m (set_cell m sid p v).
Proof. intros H. split; [apply (set_cell_store m sid [p]); cbn; auto|]. apply (set_cell_spec m sid [p] p v H). left; reflexivity. Qed.
Lemma there_pos m sid p : there m sid p -> 0 <= p.
Proof. intros [c [_ F]]. inversion F. lia. Qed.
Lemma inside_there m sid ps p : inside m sid ps -> In p ps -> there m sid p.
Proof. intros [c [E F]] H. exists c. split; auto. rewrite Forall_forall in F. constructor; auto. Qed.

Lemma load_set_other m sid p v sid' p' : there m sid p -> there m sid' p' -> (sid, p) <> (sid', p') -> load (set_cell m sid p v) sid' p' = load m sid' p'.
Proof.
  intros H H' D. destruct (set_cell_spec m sid [p] p v H ltac:(left; reflexivity)) as [S1 [_ C]].
  assert (H2 := inside_shape _ _ _ _ S1 H').
  destruct (load_inside _ sid' [p'] p' H' ltac:(left; reflexivity)) as [w [-> [Ew Hp]]].
  destruct (load_inside _ sid' [p'] p' H2 ltac:(left; reflexivity)) as [w' [-> [Ew' _]]].
  f_equal. assert (Some w' = Some w); [|congruence]. rewrite <- Ew, <- Ew'. apply C; auto.
  destruct (Nat.eq_dec sid' sid) as [->|]; auto. right. congruence.
Qed.
Lemma upd_nat_comm {A} (l : list A) : forall i j x y, i <> j -> upd_nat (upd_nat l i x) j y = upd_nat (upd_nat l j y) i x.
Proof. induction l as [|a l IH]; intros [|i] [|j] x y H; cbn; try reflexivity; try lia. f_equal. apply IH. lia. Qed.
Lemma upd_nat_twice {A} (l : list A) : forall i x y, upd_nat (upd_nat l i x) i y = upd_nat l i y.
Proof. induction l as [|a l IH]; intros [|i] x y; cbn; try reflexivity. f_equal. apply IH. Qed.
Lemma set_comm m sid p v sid' p' v' : there m sid p -> there m sid' p' -> (sid, p) <> (sid', p') ->
  set_cell (set_cell m sid p v) sid' p' v' = set_cell (set_cell m sid' p' v') sid p v.
Proof.
  intros H H' D. assert (Hp := there_pos _ _ _ H). assert (Hp' := there_pos _ _ _ H'). destruct H as [c [E F]], H' as [c' [E' F']].
  assert (L : (sid < length m)%nat) by (apply nth_error_Some; congruence). assert (L' : (sid' < length m)%nat) by (apply nth_error_Some; congruence).
  unfold set_cell. rewrite E, E'. destruct (Nat.eq_dec sid sid') as [<-|N].
  - assert (c' = c) by congruence. subst c'. rewrite !nth_upd_nat_same by exact L. rewrite !upd_nat_twice. f_equal. apply upd_nat_comm. intros X. apply D. f_equal. lia.
  - rewrite !nth_upd_nat_other by lia. rewrite E, E'. apply upd_nat_comm. exact N.
Qed.

(** ** programs of accesses *)
Fixpoint alone (P : prog) (m : mem) : option (list V * mem) :=
  match P with
  | Done out => Some (out, m)
  | Fail => None
  | Get sid p k => match load m sid p with Ok v => alone (k v) m | _ => None end
  | Put sid p v k => match store m sid p v with Ok m' => alone k m' | _ => None end
  end.
(** All accesses are to elements of [m], the loads in [R], the stores in [W]. *)
Fixpoint fits (m : mem) (R W : nat * Z -> Prop) (P : prog) : Prop :=
  match P with
  | Done _ => True
  | Fail => False
  | Get sid p k => R (sid, p) /\ there m sid p /\ forall v, fits m R W (k v)
  | Put sid p v k => W (sid, p) /\ there m sid p /\ fits m R W k
  end.
(** Exactly [n] accesses. *)
Fixpoint takes (P : prog) (n : nat) : Prop :=
  match P with
  | Done _ => n = O
  | Fail => False
  | Get _ _ k => match n with O => False | S n' => forall v, takes (k v) n' end
  | Put _ _ _ k => match n with O => False | S n' => takes k n' end
  end.
Lemma fits_shape m m' R W P : same_shape m m' -> fits m R W P -> fits m' R W P.
Proof.
  intros S. induction P; cbn; auto.
  - intros [H1 [H2 H3]]. split; auto. split; [exact (inside_shape _ _ _ _ S H2)|auto].
  - intros [H1 [H2 H3]]. split; auto. split; [exact (inside_shape _ _ _ _ S H2)|auto].
Qed.
Lemma fits_mono m (R W R' W' : nat * Z -> Prop) P : (forall c, R c -> R' c) -> (forall c, W c -> W' c) -> fits m R W P -> fits m R' W' P.
Proof. intros HR HW. induction P; cbn; auto; intros [? [? ?]]; repeat split; auto. Qed.
Lemma shape_refl m : same_shape m m. Proof. reflexivity. Qed.
Lemma shape_trans m m' m'' : same_shape m m' -> same_shape m' m'' -> same_shape m m''.
Proof. unfold same_shape. congruence. Qed.

(** Running a program alone: it ends, keeps the shape, leaves what it may not write. *)
Lemma alone_ok R W P : forall m, fits m R W P -> exists out m', alone P m = Some (out, m') /\ same_shape m m' /\
  (forall sid p, there m sid p -> ~ W (sid, p) -> load m' sid p = load m sid p).
Proof.
  induction P as [out| |sid p k IH|sid p v k IH]; intros m F; cbn [fits alone] in *.
  - exists out, m. split; [reflexivity|]. split; [apply shape_refl|reflexivity].
  - contradiction.
  - destruct F as [_ [T F]]. destruct (there_load _ _ _ T) as [v ->]. apply IH. apply F.
  - destruct F as [Hw [T F]]. destruct (there_store _ _ _ v T) as [-> S]. destruct (IH _ (fits_shape _ _ _ _ _ S F)) as [out [m' [E [S' C]]]].
    exists out, m'. split; [exact E|]. split; [eapply shape_trans; eauto|]. intros sid' p' T' N.
    rewrite C; [|exact (inside_shape _ _ _ _ S T')|exact N]. apply load_set_other; auto. congruence.
Qed.
(** A write elsewhere can come before or after. *)
Lemma alone_store R W P sid p v : ~ R (sid, p) -> ~ W (sid, p) -> forall m, there m sid p -> fits m R W P ->
  alone P (set_cell m sid p v) = match alone P m with Some r => Some (fst r, set_cell (snd r) sid p v) | None => None end.
Proof.
  intros NR NW. induction P as [out| |sid' p' k IH|sid' p' v' k IH]; intros m T F; cbn [fits alone] in *; try reflexivity.
  - destruct F as [HR [T' F]]. rewrite load_set_other by (auto; congruence). destruct (there_load _ _ _ T') as [w ->]. apply IH; auto.
  - destruct F as [HW [T' F]]. destruct (there_store _ _ _ v T) as [_ S]. destruct (there_store _ _ _ v' T') as [E' S'].
    rewrite E'. destruct (there_store _ _ _ v' (inside_shape _ _ _ _ S T')) as [-> _].
    rewrite set_comm by (auto; congruence). apply IH; [exact (inside_shape _ _ _ _ S' T)|exact (fits_shape _ _ _ _ _ S' F)].
Qed.

(** All threads, one after the other. *)
Fixpoint in_turn (Ps : list prog) (m : mem) : option (list (list V) * mem) :=
  match Ps with
  | [] => Some ([], m)
  | P :: Ps' => match alone P m with
                | Some (out, m') => match in_turn Ps' m' with Some (outs, m'') => Some (out :: outs, m'') | None => None end
                | None => None
                end
  end.
(** Footprints of the threads. *)
Definition apart (RW : list ((nat * Z -> Prop) * (nat * Z -> Prop))) : Prop :=
  forall i j R W R' W' c, i <> j -> nth_error RW i = Some (R, W) -> nth_error RW j = Some (R', W') -> W c -> ~ R' c /\ ~ W' c.
Definition all_fit m RW (Ps : list prog) : Prop := Forall2 (fun rw P => fits m (fst rw) (snd rw) P) RW Ps.

Lemma apart_tail rw RW : apart (rw :: RW) -> apart RW.
Proof. intros H i j R W R' W' c N E E' Hw. apply (H (S i) (S j) R W R' W' c); auto. Qed.
Lemma all_fit_shape m m' RW Ps : same_shape m m' -> all_fit m RW Ps -> all_fit m' RW Ps.
Proof. intros S F. induction F; constructor; auto. eapply fits_shape; eauto. Qed.
Lemma Forall2_nth {A B} (Rel : A -> B -> Prop) l l' : Forall2 Rel l l' -> forall i b, nth_error l' i = Some b -> exists a, nth_error l i = Some a /\ Rel a b.
Proof. induction 1; intros [|i] b' E; cbn in *; try discriminate; [injection E as <-; eauto|auto]. Qed.
Lemma Forall2_upd {A B} (Rel : A -> B -> Prop) l l' : Forall2 Rel l l' -> forall i a b, nth_error l i = Some a -> Rel a b -> Forall2 Rel l (upd_nat l' i b).
Proof. induction 1; intros [|i] a b' E H'; cbn in *; try discriminate; constructor; auto; [congruence|eapply IHForall2; eauto]. Qed.

Lemma in_turn_ok : forall RW Ps m, all_fit m RW Ps -> exists outs m', in_turn Ps m = Some (outs, m') /\ same_shape m m'.
Proof.
  induction RW as [|[R W] RW IH]; intros Ps m F; inversion F as [|? P ? Ps' FP FPs]; subst; cbn [in_turn].
  - exists [], m. split; [reflexivity|apply shape_refl].
  - destruct (alone_ok R W P m FP) as [out [m1 [-> [S C]]]]. destruct (IH Ps' m1 (all_fit_shape _ _ _ _ S FPs)) as [outs [m2 [-> S2]]].
    eexists _, _. split; [reflexivity|]. eapply shape_trans; eauto.
Qed.

(** A write of no other thread's concern can come first or last. *)
Lemma in_turn_store sid p v : forall RW Ps m, all_fit m RW Ps -> there m sid p -> (forall rw, In rw RW -> ~ fst rw (sid, p) /\ ~ snd rw (sid, p)) ->
  in_turn Ps (set_cell m sid p v) = match in_turn Ps m with Some r => Some (fst r, set_cell (snd r) sid p v) | None => None end.
Proof.
  induction RW as [|[R W] RW IH]; intros Ps m F T N; inversion F as [|? P ? Ps' FP FPs]; subst; cbn [in_turn]; [reflexivity|].
  destruct (N (R, W) ltac:(left; reflexivity)) as [N1 N2]. cbn [fst snd] in *.
  rewrite (alone_store R W P sid p v N1 N2 m T FP). destruct (alone_ok R W P m FP) as [out [m1 [-> [S C]]]]. cbn [fst snd].
  rewrite (IH Ps' m1); [|exact (all_fit_shape _ _ _ _ S FPs)|exact (inside_shape _ _ _ _ S T)|intros rw H; apply N; right; exact H].
  destruct (in_turn Ps' m1) as [[outs m2]|]; reflexivity.
Qed.

(** A step of any thread does not change where the threads end. *)
Lemma step_in_turn : forall RW Ps i P m m' P', apart RW -> all_fit m RW Ps -> nth_error Ps i = Some P -> step1 m P = Some (m', P') ->
  in_turn (upd_nat Ps i P') m' = in_turn Ps m /\ all_fit m' RW (upd_nat Ps i P') /\ same_shape m m'.
Proof.
  induction RW as [|[R W] RW IH]; intros Ps i P m m' P' A F E St; inversion F as [|? Q ? Ps' FP FPs]; subst; [destruct i; discriminate E|].
  destruct i as [|i]; cbn [nth_error upd_nat in_turn] in *.
  - injection E as ->. destruct P as [|  |sid p k|sid p v k]; cbn [step1] in St; try discriminate St; cbn [fits fst snd] in FP; destruct FP as [H [T FP]].
    + destruct (there_load _ _ _ T) as [v Ev]. rewrite Ev in St. injection St as <- <-. cbn [alone]. rewrite Ev.
      split; [reflexivity|]. split; [constructor; cbn [fst snd]; auto|apply shape_refl].
    + destruct (there_store _ _ _ v T) as [Ev S]. rewrite Ev in St. injection St as <- <-. cbn [alone]. rewrite Ev.
      split; [reflexivity|]. split; [|exact S]. constructor; [exact (fits_shape _ _ _ _ _ S FP)|exact (all_fit_shape _ _ _ _ S FPs)].
  - destruct (alone_ok R W Q m FP) as [out [m1 [Em [S1 C1]]]]. rewrite Em.
    assert (F1 := all_fit_shape _ _ _ _ S1 FPs). cbn [fst snd] in FP.
    destruct (Forall2_nth _ _ _ FPs i P E) as [[R' W'] [Erw FP']]. cbn [fst snd] in FP'.
    destruct P as [|  |sid p k|sid p v k]; cbn [step1] in St; try discriminate St; cbn [fits] in FP'; destruct FP' as [H [T FP']].
    + destruct (there_load _ _ _ T) as [v Ev]. rewrite Ev in St. injection St as <- <-. rewrite Em.
      assert (E1 : step1 m1 (Get sid p k) = Some (m1, k v)).
      { cbn [step1]. rewrite C1, Ev; auto. intros Hw. destruct (A 0%nat (S i) R W R' W' (sid, p) ltac:(lia) eq_refl Erw Hw) as [NR _]. auto. }
      destruct (IH Ps' i (Get sid p k) m1 m1 (k v) (apart_tail _ _ A) F1 E E1) as [I1 [I2 I3]]. rewrite I1.
      split; [reflexivity|]. split; [|apply shape_refl]. constructor; cbn [fst snd]; [exact FP|].
      apply Forall2_upd with (a := (R', W')); auto.
    + destruct (there_store _ _ _ v T) as [Ev Sh]. rewrite Ev in St. injection St as <- <-.
      assert (N : ~ R (sid, p) /\ ~ W (sid, p)) by (apply (A (S i) 0%nat R' W' R W (sid, p)); auto). destruct N as [N1 N2].
      rewrite (alone_store R W Q sid p v N1 N2 m T FP), Em. cbn [fst snd].
      assert (T1 := inside_shape _ _ _ _ S1 T).
      assert (E1 : step1 m1 (Put sid p v k) = Some (set_cell m1 sid p v, k)). { cbn [step1]. destruct (there_store _ _ _ v T1) as [-> _]. reflexivity. }
      destruct (IH Ps' i (Put sid p v k) m1 _ k (apart_tail _ _ A) F1 E E1) as [I1 [I2 I3]]. rewrite I1.
      split; [reflexivity|]. split; [|exact Sh]. constructor; cbn [fst snd]; [exact (fits_shape _ _ _ _ _ Sh FP)|].
      apply Forall2_upd with (a := (R', W')); auto; [exact (all_fit_shape _ _ _ _ Sh FPs)|]. cbn [fst snd]. exact (fits_shape _ _ _ _ _ Sh FP').
Qed.

Lemma steps_in_turn N s s' : steps N s s' -> forall RW, apart RW -> all_fit (fst s) RW (snd s) ->
  in_turn (snd s') (fst s') = in_turn (snd s) (fst s) /\ all_fit (fst s') RW (snd s') /\ same_shape (fst s) (fst s').
Proof.
  induction 1 as [N s _|N N' i m Ps P m' P' s -> E St _ IH]; intros RW A F; [repeat split; auto|]. cbn [fst snd] in *.
  destruct (step_in_turn RW Ps i P m m' P' A F E St) as [I1 [I2 I3]]. destruct (IH RW A I2) as [J1 [J2 J3]].
  split; [congruence|]. split; [exact J2|eapply shape_trans; eauto].
Qed.

Lemma fits_step m R W P : fits m R W P -> (exists out, P = Done out) \/ exists m' P', step1 m P = Some (m', P').
Proof.
  destruct P; cbn; intros F; [left; eauto|contradiction| |]; right; destruct F as [_ [T _]].
  - destruct (there_load _ _ _ T) as [v ->]. eauto.
  - destruct (there_store _ _ _ v T) as [-> _]. eauto.
Qed.
Lemma all_fit_progress : forall RW Ps m, all_fit m RW Ps -> finished Ps \/ exists i P m' P', nth_error Ps i = Some P /\ step1 m P = Some (m', P').
Proof.
  induction RW as [|[R W] RW IH]; intros Ps m F; inversion F as [|? P ? Ps' FP FPs]; subst; [left; constructor|].
  destruct (fits_step _ _ _ _ FP) as [[out ->]|[m' [P' St]]].
  - destruct (IH Ps' m FPs) as [H|[i [P [m' [P' [E St]]]]]]; [left; constructor; eauto|right; exists (S i); eauto].
  - right. exists O, P, m', P'. auto.
Qed.
Lemma no_race RW Ps m : apart RW -> all_fit m RW Ps -> ~ data_race Ps.
Proof.
  intros A F (i & j & P & Q & sid & p & wi & wj & N & Ei & Ej & NP & NQ & Hw).
  destruct (Forall2_nth _ _ _ F i P Ei) as [[R W] [Ri FP]]. destruct (Forall2_nth _ _ _ F j Q Ej) as [[R' W'] [Rj FQ]]. cbn [fst snd] in *.
  assert (HP : if wi then W (sid, p) else R (sid, p)). { destruct P; cbn in NP; try discriminate NP; injection NP as <- <- <-; apply FP. }
  assert (HQ : if wj then W' (sid, p) else R' (sid, p)). { destruct Q; cbn in NQ; try discriminate NQ; injection NQ as <- <- <-; apply FQ. }
  destruct wi; [destruct (A i j R W R' W' (sid, p) N Ri Rj HP); destruct wj; auto|].
  destruct wj; [|destruct Hw; discriminate]. destruct (A j i R' W' R W (sid, p) ltac:(auto) Rj Ri HQ). auto.
Qed.
Lemma in_turn_done : forall Ps m, finished Ps -> exists outs, in_turn Ps m = Some (outs, m) /\ Ps = map Done outs.
Proof.
  induction Ps as [|P Ps IH]; intros m F; [exists []; split; reflexivity|]. inversion F as [|? ? [out ->] FPs]; subst. cbn [in_turn alone].
  destruct (IH m FPs) as [outs [-> ->]]. exists (out :: outs). split; reflexivity.
Qed.
(** The number of accesses. *)
Lemma steps_takes N s s' : steps N s s' -> forall ns, Forall2 takes (snd s) ns -> exists ns', Forall2 takes (snd s') ns' /\ (N + list_sum ns' = list_sum ns)%nat.
Proof.
  induction 1 as [N s ->|N N' i m Ps P m' P' s -> E St _ IH]; intros ns A; [exists ns; split; [exact A|reflexivity]|]. cbn [fst snd] in *.
  assert (H : exists ns', Forall2 takes (upd_nat Ps i P') ns' /\ (S (list_sum ns') = list_sum ns)%nat).
  { clear IH. revert i E ns A. induction Ps as [|Q Ps IH]; intros [|i] E ns A; cbn in E; try discriminate E; inversion A as [|? n ? ns' AQ AP]; subst; cbn [upd_nat].
    - injection E as ->. destruct P as [| |sid p k|sid p v k]; cbn [step1] in St; try discriminate St; destruct n as [|n]; cbn in AQ; try contradiction.
      + destruct (load m sid p); try discriminate St. injection St as <- <-. exists (n :: ns'). split; [constructor; auto|reflexivity].
      + destruct (store m sid p v); try discriminate St. injection St as <- <-. exists (n :: ns'). split; [constructor; auto|reflexivity].
    - destruct (IH i E ns' AP) as [ns2 [A2 L2]]. exists (n :: ns2). split; [constructor; auto|]. unfold list_sum in *. cbn [fold_right] in *. lia. }
  destruct H as [ns' [A' L]]. destruct (IH ns' A') as [ns2 [A2 L2]]. exists ns2. split; [exact A2|lia].
Qed.
Lemma takes_finished : forall Ps ns, Forall2 takes Ps ns -> finished Ps <-> list_sum ns = O.
Proof.
  induction 1 as [|P n Ps ns H _ IH]; [split; [reflexivity|constructor]|]. unfold list_sum in *. cbn [fold_right]. split.
  - intros F. inversion F as [|? ? [out ->] F']; subst. cbn in H. apply IH in F'. lia.
  - intros L. constructor; [|apply IH; lia]. assert (n = O) by lia. subst n. destruct P; cbn in H; try contradiction. eauto.
Qed.

(** ** the accesses of statements *)
Lemma alone_guard {A} (o : outcome A) (k : A -> prog) m : alone (guard o k) m = match o with Ok a => alone (k a) m | _ => None end.
Proof. destruct o; reflexivity. Qed.
Lemma alone_deref h x : forall k m, alone (p_deref h x k) m = match xderef h m x with Ok r => alone (k (fst r)) m | _ => None end.
Proof.
  induction x as [sid i|src i IH|src i IHi j IHj]; intros k m; cbn [p_deref xderef].
  - rewrite alone_guard. destruct (lit_deref i); cbn [bindO]; try reflexivity. cbn [alone]. destruct (load m sid a); reflexivity.
  - destruct (nth_error h src) as [[[f|f|]|]|]; try reflexivity.
    + rewrite IH. destruct (xderef h m i); reflexivity.
    + destruct i; try reflexivity. apply IH.
  - destruct (nth_error h src) as [[[f|f|]|]|]; try reflexivity.
    rewrite IHi. destruct (xderef h m i); try reflexivity. cbn [bindO]. rewrite IHj. destruct (xderef h m j); reflexivity.
Qed.
Lemma alone_assign h sid dend K : forall fuel d x m, alone (p_assign fuel h sid d dend x K) m =
  match assign_loop fuel h sid d dend x m with Ok q => alone (K (snd q)) (fst q) | _ => None end.
Proof.
  induction fuel as [|f IH]; intros d x m; cbn [p_assign assign_loop]; [reflexivity|]. destruct (lit_eqb d dend); [reflexivity|].
  rewrite alone_guard. destruct (lit_deref d) as [p| | | |]; try reflexivity. cbn [bindO]. rewrite alone_guard. destruct (xnext x) as [x'| | | |]; try reflexivity. cbn [bindO].
  rewrite alone_deref. destruct (xderef h m x) as [r| | | |]; try reflexivity. cbn [bindO alone]. destruct (store m sid p (fst r)) as [m'| | | |]; try reflexivity. cbn [bindO].
  rewrite alone_guard. destruct (lit_next d) as [d'| | | |]; try reflexivity. cbn [bindO]. apply IH.
Qed.
Lemma alone_update sid dend op K : forall fuel d m, alone (p_update fuel sid d dend op K) m =
  match update_loop fuel sid d dend op m with Ok q => alone K (fst q) | _ => None end.
Proof.
  induction fuel as [|f IH]; intros d m; cbn [p_update update_loop]; [reflexivity|]. destruct (lit_eqb d dend); [reflexivity|].
  rewrite alone_guard. destruct (lit_deref d) as [p| | | |]; try reflexivity. cbn [bindO alone]. destruct (load m sid p) as [v| | | |]; try reflexivity. cbn [bindO].
  destruct (store m sid p (op v)) as [m'| | | |]; try reflexivity. cbn [bindO].
  rewrite alone_guard. destruct (lit_next d) as [d'| | | |]; try reflexivity. cbn [bindO]. rewrite IH. destruct (update_loop f sid d' dend op m'); reflexivity.
Qed.
Lemma alone_inplace h sid dend f K : forall fuel d x m, alone (p_inplace fuel h sid d dend x f K) m =
  match inplace_loop fuel h sid d dend x f m with Ok q => alone K (fst q) | _ => None end.
Proof.
  induction fuel as [|fu IH]; intros d x m; cbn [p_inplace inplace_loop]; [reflexivity|]. destruct (lit_eqb d dend); [reflexivity|].
  rewrite alone_guard. destruct (lit_deref d) as [p| | | |]; try reflexivity. cbn [bindO]. rewrite alone_guard. destruct (lit_next d) as [d'| | | |]; try reflexivity. cbn [bindO].
  rewrite alone_guard. destruct (xnext x) as [x'| | | |]; try reflexivity. cbn [bindO].
  rewrite alone_deref. destruct (xderef h m x) as [r| | | |]; try reflexivity. cbn [bindO alone]. destruct (load m sid p) as [v| | | |]; try reflexivity. cbn [bindO].
  destruct (store m sid p (f v (fst r))) as [m'| | | |]; try reflexivity. cbn [bindO]. rewrite IH. destruct (inplace_loop fu h sid d' dend x' f m'); reflexivity.
Qed.
Lemma alone_copy h : forall n x K m, alone (p_copy n h x K) m = match copy_n n h m x with Ok q => alone (K (fst q)) m | _ => None end.
Proof.
  induction n as [|n IH]; intros x K m; cbn [p_copy copy_n]; [reflexivity|].
  rewrite alone_deref. destruct (xderef h m x) as [r| | | |]; try reflexivity. cbn [bindO]. rewrite alone_guard. destruct (xnext x) as [x'| | | |]; try reflexivity. cbn [bindO].
  rewrite IH. destruct (copy_n n h m x'); reflexivity.
Qed.

Lemma load_last m vs i : load (m ++ [vs]) (length m) i = get vs i.
Proof. unfold load. rewrite nth_error_app2, Nat.sub_diag by lia. reflexivity. Qed.
Lemma upd_nat_app {A} (l l' : list A) : forall i x, (i < length l)%nat -> upd_nat (l ++ l') i x = upd_nat l i x ++ l'.
Proof. induction l as [|a l IH]; intros [|i] x H; cbn in *; try lia; [reflexivity|]. f_equal. apply IH. lia. Qed.
Lemma store_app m vs sid p v : (sid < length m)%nat -> store (m ++ [vs]) sid p v = match store m sid p v with Ok m' => Ok (m' ++ [vs]) | Throw x => Throw x | Abort => Abort | UB => UB | Timeout => Timeout end.
Proof.
  intros H. unfold store. rewrite nth_error_app1 by exact H. destruct (nth_error m sid) as [c|]; [|reflexivity].
  destruct (put c p v); cbn [bindO]; try reflexivity. rewrite upd_nat_app by exact H. reflexivity.
Qed.
Lemma store_length m sid p v m' : store m sid p v = Ok m' -> length m' = length m.
Proof. unfold store. destruct (nth_error m sid); [|discriminate]. destruct (put _ p v); cbn; try discriminate. intros [= <-]. apply upd_length. Qed.
Lemma alone_write h vs sid dend K : forall fu d i m, (sid < length m)%nat -> (i <= length vs)%nat ->
  (exists j m', assign_loop fu h sid d dend (XLeaf (length m) (IPtr (Z.of_nat i))) (m ++ [vs]) = Ok (m' ++ [vs], XLeaf (length m) (IPtr (Z.of_nat j))) /\ (j <= length vs)%nat /\
     length m' = length m /\ alone (p_write fu sid d dend (skipn i vs) K) m = alone (K (skipn j vs)) m') \/
  (forall r, assign_loop fu h sid d dend (XLeaf (length m) (IPtr (Z.of_nat i))) (m ++ [vs]) <> Ok r) /\ alone (p_write fu sid d dend (skipn i vs) K) m = None.
Proof.
  induction fu as [|f IH]; intros d i m Hs Hi; cbn [p_write assign_loop]; [right; split; [discriminate|reflexivity]|].
  destruct (lit_eqb d dend); [left; exists i, m; auto|].
  rewrite alone_guard. destruct (lit_deref d) as [p| | | |]; try (right; split; [discriminate|reflexivity]). cbn [bindO xnext lit_next xderef lit_deref]. rewrite load_last.
  destruct (nth_error vs i) as [v|] eqn:E.
  - assert (Hl : (i < length vs)%nat) by (apply nth_error_Some; congruence).
    rewrite (skipn_nth _ _ _ E). unfold get. rewrite Nat2Z.id, E. replace (0 <=? Z.of_nat i) with true by (symmetry; apply Z.leb_le; lia).
    replace (Z.of_nat i <? Z.of_nat (length vs)) with true by (symmetry; apply Z.ltb_lt; lia). cbn [andb bindO fst alone]. rewrite store_app by exact Hs.
    destruct (store m sid p v) as [m'| | | |] eqn:Em; try (right; split; [discriminate|reflexivity]). cbn [bindO]. rewrite alone_guard.
    destruct (lit_next d) as [d'| | | |]; try (right; split; [discriminate|reflexivity]). cbn [bindO].
    assert (L := store_length _ _ _ _ _ Em). rewrite <- L. replace (Z.of_nat i + 1) with (Z.of_nat (S i)) by lia.
    destruct (IH d' (S i) m' ltac:(lia) ltac:(lia)) as [[j [m2 [E2 [H2 [L2 A2]]]]]|R]; [|right; exact R]. left. exists j, m2. rewrite E2, A2. repeat split; auto.
  - apply nth_error_None in E. rewrite skipn_all2 by lia. unfold get. replace (Z.of_nat i <? Z.of_nat (length vs)) with false by (symmetry; apply Z.ltb_ge; lia).
    rewrite andb_false_r. right. split; [discriminate|reflexivity].
Qed.

(** A statement alone is the function of Expr.v. *)
Lemma alone_stmt chk fuel m t K : ok_stmt fuel m t -> alone (p_stmt chk fuel t K) m = match sem chk fuel t m with Ok r => alone (K (fst r)) (snd r) | _ => None end.
Proof.
  intros OK. destruct t as [sid s e|sid s f e|sid s op|sid s e|e]; cbn [p_stmt sem].
  - unfold view_assign, array_assign. rewrite alone_guard. destruct (build chk e []) as [r| | | |]; try reflexivity. cbn [bindO]. destruct (dims s) as [es|]; [|reflexivity].
    rewrite alone_guard. destruct (dassert chk _); try reflexivity. cbn [bindO]. rewrite alone_guard. destruct (leaf_range s) as [l| | | |]; try reflexivity. cbn [bindO].
    rewrite alone_assign. destruct (assign_loop _ _ _ _ _ _ m) as [q| | | |]; try reflexivity. cbn [bindO]. rewrite alone_guard. destruct (dassert chk _); reflexivity.
  - unfold view_inplace. rewrite alone_guard. destruct (build chk e []) as [r| | | |]; try reflexivity. cbn [bindO]. destruct (dims s) as [es|]; [|reflexivity].
    rewrite alone_guard. destruct (dassert chk _); try reflexivity. cbn [bindO]. rewrite alone_guard. destruct (leaf_range s) as [l| | | |]; try reflexivity. cbn [bindO].
    rewrite alone_inplace. destruct (inplace_loop _ _ _ _ _ _ f m); reflexivity.
  - unfold view_update. rewrite alone_guard. destruct (leaf_range s) as [l| | | |]; try reflexivity. cbn [bindO].
    rewrite alone_update. destruct (update_loop _ _ _ _ op m); reflexivity.
  - unfold overlap_assign, eval_expr, materialise. destruct OK as [es [ps [Hv [Hi [Hf Ke]]]]].
    assert (Hs : (sid < length m)%nat). { destruct Hi as [c [Ec _]]. apply nth_error_Some. congruence. }
    destruct (build_spec _ _ _ _ Ke chk []) as [x [xe [h [-> X]]]]. cbn [app guard bindO fst snd sdim sbeg send] in *.
    destruct (expr_ok_dims _ _ _ _ Ke) as [D1 [D2 D3]]. rewrite prod_arr_small by auto. assert (Hz := zprod_nonneg _ D2).
    rewrite alone_copy. destruct (copy_n_spec fuel m h e es xe Ke (Z.to_nat (zprod es)) 0 x ltac:(lia) X) as [vs [-> Hvs]]. cbn [bindO fst snd].
    assert (L : length vs = Z.to_nat (zprod es)). { apply (f_equal (@length _)) in Hvs. rewrite !map_length, seq_length in Hvs. exact Hvs. }
    unfold view_assign, array_assign. cbn [build leaf_range dims bindO fst snd sdim sbeg send]. rewrite prod_arr_small by auto.
    destruct (dims s) as [es2|]; [|reflexivity]. rewrite alone_guard. destruct (dassert chk _); try reflexivity. cbn [bindO]. rewrite alone_guard.
    destruct (leaf_range s) as [l| | | |]; try reflexivity. cbn [bindO].
    destruct (alone_write [] vs sid (snd l) (fun rest => guard (dassert chk (Nat.eqb (length rest) 0)) (fun _ => K [])) fuel (fst l) 0 m Hs ltac:(lia)) as [[j [m' [E [Hj [Lm A]]]]]|[E A]];
      cbn [skipn] in A; rewrite A; change (Z.of_nat 0) with 0 in E.
    + rewrite E. cbn [bindO fst snd xeqb lit_eqb]. rewrite alone_guard. rewrite skipn_length.
      replace (Z.of_nat j =? 0 + zprod es) with (Nat.eqb (length vs - j) 0).
      2: { destruct (Nat.eqb_spec (length vs - j) 0); symmetry; [apply Z.eqb_eq|apply Z.eqb_neq]; lia. }
      destruct (dassert chk (length vs - j =? 0)%nat); try reflexivity. cbn [bindO fst snd].
      rewrite <- Lm, firstn_app, Nat.sub_diag, firstn_O, app_nil_r, firstn_all. reflexivity.
    + destruct (assign_loop _ _ _ _ _ _ (m ++ [vs])) as [r| | | |]; try reflexivity. destruct (E r eq_refl).
  - unfold eval_expr, materialise. rewrite alone_guard. destruct (build chk e []) as [r| | | |]; try reflexivity. cbn [bindO].
    rewrite alone_copy. destruct (copy_n _ _ m _); reflexivity.
Qed.

(** Footprint and number of accesses. *)
Definition good m (R W : nat * Z -> Prop) (P : prog) (n : nat) : Prop := fits m R W P /\ takes P n.
Lemma good_get m R W sid p k n : R (sid, p) -> there m sid p -> (forall v, good m R W (k v) n) -> good m R W (Get sid p k) (S n).
Proof. intros H T G. split; cbn; [repeat split; auto; intros v; apply G|intros v; apply G]. Qed.
Lemma good_put m R W sid p v k n : W (sid, p) -> there m sid p -> good m R W k n -> good m R W (Put sid p v k) (S n).
Proof. intros H T [G1 G2]. split; cbn; auto. Qed.
Lemma load_there m sid p v : load m sid p = Ok v -> there m sid p.
Proof.
  unfold load, get. destruct (nth_error m sid) as [c|] eqn:E; [|discriminate]. destruct (0 <=? p) eqn:H1; [|discriminate]. destruct (p <? Z.of_nat (length c)) eqn:H2; [|discriminate].
  intros _. exists c. split; auto. constructor; [|constructor]. apply Z.leb_le in H1. apply Z.ltb_lt in H2. lia.
Qed.
Lemma good_deref m R W h x : forall v l k n, xderef h m x = Ok (v, l) -> (forall c, In c l -> R c) -> (forall v, good m R W (k v) n) -> good m R W (p_deref h x k) (length l + n).
Proof.
  induction x as [sid i|src i IH|src i IHi j IHj]; intros v l k n E HR G; cbn [p_deref xderef] in *.
  - destruct (lit_deref i) as [p| | | |]; try discriminate E. cbn [bindO guard] in *. destruct (load m sid p) as [w| | | |] eqn:Ew; try discriminate E. injection E as <- <-.
    apply good_get; auto; [apply HR; left; reflexivity|exact (load_there _ _ _ _ Ew)].
  - destruct (nth_error h src) as [[[f|f|]|]|]; try discriminate E.
    + destruct (xderef h m i) as [[w l']| | | |] eqn:Ei; try discriminate E. injection E as <- <-. apply (IH w l'); auto.
    + destruct i; try discriminate E. apply (IH v l); auto.
  - destruct (nth_error h src) as [[[f|f|]|]|]; try discriminate E.
    destruct (xderef h m i) as [[w l']| | | |] eqn:Ei; try discriminate E. cbn [bindO] in E. destruct (xderef h m j) as [[w' l'']| | | |] eqn:Ej; try discriminate E. injection E as <- <-.
    cbn [snd] in *. rewrite app_length, <- Nat.add_assoc. apply (IHi w l'); auto; [intros c Hc; apply HR; apply in_or_app; auto|]. intros u. apply (IHj w' l''); auto. intros c Hc. apply HR. apply in_or_app. auto.
Qed.
Lemma reads_count fuel m e es k : expr_ok fuel m e es -> Z.of_nat k < zprod es -> length (reads fuel e k) = operands e.
Proof.
  intros K. induction K as [sid s es ps Hv Hi| | | |f e1 e2 es K1 IH1 K2 IH2]; intros Hk; cbn [reads operands]; auto.
  - destruct Hv as [_ [Hp [_ [_ [_ Hl]]]]]. rewrite Hp. destruct (nth_error ps k) eqn:E; [reflexivity|]. apply nth_error_None in E. lia.
  - rewrite app_length, IH1, IH2; auto.
Qed.
Lemma esize_ok fuel m e es : expr_ok fuel m e es -> esize e = Z.to_nat (zprod es).
Proof. induction 1 as [sid s es ps Hv Hi| | | |]; cbn [esize]; auto. unfold size. destruct Hv as [-> _]. reflexivity. Qed.

Section Loops.
Variables (fuel : nat) (m : mem) (R W : nat * Z -> Prop).

Lemma good_assign e es sid ps h de xe K N : expr_ok fuel m e es -> inside m sid ps -> Z.of_nat (length ps) = zprod es ->
  (forall p, In p ps -> W (sid, p)) -> (forall k c, In c (reads fuel e k) -> R c) -> (forall x', xat fuel h e (length ps) x' xe -> good m R W (K x') N) ->
  forall n k d x fu, (k + n = length ps)%nat -> (n < fu)%nat -> lwalk de d (skipn k ps) -> xat fuel h e k x xe ->
  good m R W (p_assign fu h sid d de x K) (n * (operands e + 1) + N).
Proof.
  intros Ke Hi L HW HR HK. induction n as [|n IH]; intros k d x fu Hk Hf Hw X; (destruct fu as [|fu]; [lia|]); cbn [p_assign].
  - rewrite skipn_all2 in * by lia. inversion Hw as [? He|]; subst. rewrite He. assert (k = length ps) by lia. subst k. apply HK. exact X.
  - destruct (nth_error ps k) as [p|] eqn:E; [|apply nth_error_None in E; lia].
    rewrite (skipn_nth _ _ _ E) in *. inversion Hw as [|? ? d' ? He Hde Hn' Hw']; subst. rewrite He, Hde, Hn'. cbn [guard].
    destruct (xat_next _ _ _ _ _ k Ke ltac:(lia) _ _ X) as [x' [-> X']]. cbn [guard].
    destruct (xat_deref _ _ _ _ _ k Ke ltac:(lia) _ _ X) as [w [Hv Ed]]. rewrite <- (reads_count fuel m e es k Ke ltac:(lia)).
    replace (S n * (length (reads fuel e k) + 1) + N)%nat with (length (reads fuel e k) + S (n * (operands e + 1) + N))%nat by (rewrite (reads_count fuel m e es k Ke) by lia; lia).
    apply (good_deref m R W h x w _ _ _ Ed); [intros c Hc; eapply HR; eauto|]. intros v. apply good_put; [apply HW; eapply nth_error_In; eauto|exact (inside_there _ _ _ _ Hi (nth_error_In _ _ E))|].
    apply (IH (S k)); auto; lia.
Qed.
Lemma good_inplace e es sid ps h de xe f K N : expr_ok fuel m e es -> inside m sid ps -> Z.of_nat (length ps) = zprod es ->
  (forall p, In p ps -> W (sid, p)) -> (forall p, In p ps -> R (sid, p)) -> (forall k c, In c (reads fuel e k) -> R c) -> good m R W K N ->
  forall n k d x fu, (k + n = length ps)%nat -> (n < fu)%nat -> lwalk de d (skipn k ps) -> xat fuel h e k x xe ->
  good m R W (p_inplace fu h sid d de x f K) (n * (operands e + 2) + N).
Proof.
  intros Ke Hi L HW HR1 HR HK. induction n as [|n IH]; intros k d x fu Hk Hf Hw X; (destruct fu as [|fu]; [lia|]); cbn [p_inplace].
  - rewrite skipn_all2 in * by lia. inversion Hw as [? He|]; subst. rewrite He. exact HK.
  - destruct (nth_error ps k) as [p|] eqn:E; [|apply nth_error_None in E; lia].
    rewrite (skipn_nth _ _ _ E) in *. inversion Hw as [|? ? d' ? He Hde Hn' Hw']; subst. rewrite He, Hde, Hn'. cbn [guard].
    destruct (xat_next _ _ _ _ _ k Ke ltac:(lia) _ _ X) as [x' [-> X']]. cbn [guard].
    destruct (xat_deref _ _ _ _ _ k Ke ltac:(lia) _ _ X) as [w [Hv Ed]].
    replace (S n * (operands e + 2) + N)%nat with (length (reads fuel e k) + S (S (n * (operands e + 2) + N)))%nat by (rewrite (reads_count fuel m e es k Ke) by lia; lia).
    assert (Hin := nth_error_In _ _ E). assert (T := inside_there _ _ _ _ Hi Hin).
    apply (good_deref m R W h x w _ _ _ Ed); [intros c Hc; eapply HR; eauto|]. intros v. apply good_get; auto. intros v'. apply good_put; auto.
    apply (IH (S k)); auto; lia.
Qed.
Lemma good_update sid ps de op K N : inside m sid ps -> (forall p, In p ps -> W (sid, p)) -> (forall p, In p ps -> R (sid, p)) -> good m R W K N ->
  forall n k d fu, (k + n = length ps)%nat -> (n < fu)%nat -> lwalk de d (skipn k ps) -> good m R W (p_update fu sid d de op K) (n * 2 + N).
Proof.
  intros Hi HW HR HK. induction n as [|n IH]; intros k d fu Hk Hf Hw; (destruct fu as [|fu]; [lia|]); cbn [p_update].
  - rewrite skipn_all2 in * by lia. inversion Hw as [? He|]; subst. rewrite He. exact HK.
  - destruct (nth_error ps k) as [p|] eqn:E; [|apply nth_error_None in E; lia].
    rewrite (skipn_nth _ _ _ E) in *. inversion Hw as [|? ? d' ? He Hde Hn' Hw']; subst. rewrite He, Hde, Hn'. cbn [guard].
    assert (Hin := nth_error_In _ _ E). assert (T := inside_there _ _ _ _ Hi Hin).
    change (S n * 2 + N)%nat with (S (S (n * 2 + N))). apply good_get; auto. intros v. apply good_put; auto. apply (IH (S k)); auto; lia.
Qed.
Lemma good_copy e es h xe N : expr_ok fuel m e es -> (forall k c, In c (reads fuel e k) -> R c) ->
  forall n k x K, Z.of_nat (k + n) <= zprod es -> xat fuel h e k x xe -> (forall vs, length vs = n -> good m R W (K vs) N) -> good m R W (p_copy n h x K) (n * operands e + N).
Proof.
  intros Ke HR. induction n as [|n IH]; intros k x K Hk X HK; cbn [p_copy]; [apply HK; reflexivity|].
  destruct (xat_next _ _ _ _ _ k Ke ltac:(lia) _ _ X) as [x' [-> X']]. cbn [guard].
  destruct (xat_deref _ _ _ _ _ k Ke ltac:(lia) _ _ X) as [w [Hv Ed]].
  replace (S n * operands e + N)%nat with (length (reads fuel e k) + (n * operands e + N))%nat by (rewrite (reads_count fuel m e es k Ke) by lia; lia).
  apply (good_deref m R W h x w _ _ _ Ed); [intros c Hc; eapply HR; eauto|]. intros v. apply (IH (S k)); [lia|exact X'|]. intros vs Hl. apply HK. cbn. lia.
Qed.
Lemma good_write sid ps de K N : inside m sid ps -> (forall p, In p ps -> W (sid, p)) -> good m R W (K []) N ->
  forall n k d fu vs, (k + n = length ps)%nat -> (n < fu)%nat -> lwalk de d (skipn k ps) -> length vs = n -> good m R W (p_write fu sid d de vs K) (n + N).
Proof.
  intros Hi HW HK. induction n as [|n IH]; intros k d fu vs Hk Hf Hw Hl; (destruct fu as [|fu]; [lia|]); cbn [p_write].
  - rewrite skipn_all2 in * by lia. inversion Hw as [? He|]; subst. rewrite He. destruct vs; [exact HK|discriminate Hl].
  - destruct (nth_error ps k) as [p|] eqn:E; [|apply nth_error_None in E; lia].
    rewrite (skipn_nth _ _ _ E) in *. inversion Hw as [|? ? d' ? He Hde Hn' Hw']; subst. rewrite He, Hde, Hn'. cbn [guard].
    destruct vs as [|v vs]; [discriminate Hl|]. assert (Hin := nth_error_In _ _ E). assert (T := inside_there _ _ _ _ Hi Hin).
    cbn [Nat.add]. apply good_put; auto. apply (IH (S k)); auto; try lia.
Qed.
End Loops.

Lemma size_view fuel s es ps : is_view fuel s es ps -> size s = length ps.
Proof. intros [H1 [_ [_ [_ [_ H6]]]]]. unfold size. rewrite H1. lia. Qed.
Lemma good_stmt chk fuel m (R W : nat * Z -> Prop) t K N : ok_stmt fuel m t -> (forall c, looks fuel t c -> R c) -> (forall c, writes fuel t c -> W c) ->
  (forall vs, good m R W (K vs) N) -> good m R W (p_stmt chk fuel t K) (accesses t + N).
Proof.
  intros OK HR HW HK. destruct t as [sid s e|sid s f e|sid s op|sid s e|e]; cbn [p_stmt accesses ok_stmt] in *.
  - destruct OK as [es [ps [Hv [Hi [Hf Ke]]]]]. rewrite (size_view _ _ _ _ Hv). destruct Hv as [H1 [H2 [H3 [H4 [H5 H6]]]]].
    destruct (build_spec _ _ _ _ Ke chk []) as [x [xe [h [-> X]]]]. cbn [guard fst snd sdim sbeg send app] in *. rewrite H1, Zlist_eqb_refl, dassert_true. cbn [guard].
    destruct (positions_lwalk _ _ _ H2) as [b [en [-> Hw]]]. cbn [guard fst snd].
    apply (good_assign fuel m R W e es sid ps h en xe _ N Ke Hi H6) with (k := 0%nat); auto.
    + intros p Hp. apply HW. cbn. split; eauto.
    + intros k c Hc. apply HR. cbn. eauto.
    + intros x' X'. rewrite (xat_end _ _ _ _ _ _ Ke H6 _ _ X'), dassert_true. cbn [guard]. apply HK.
  - destruct OK as [es [ps [Hv [Hi [Hf Ke]]]]]. rewrite (size_view _ _ _ _ Hv). destruct Hv as [H1 [H2 [H3 [H4 [H5 H6]]]]].
    destruct (build_spec _ _ _ _ Ke chk []) as [x [xe [h [-> X]]]]. cbn [guard fst snd sdim sbeg send app] in *. rewrite H1, Zlist_eqb_refl, dassert_true. cbn [guard].
    destruct (positions_lwalk _ _ _ H2) as [b [en [-> Hw]]]. cbn [guard fst snd].
    apply (good_inplace fuel m R W e es sid ps h en xe f _ N Ke Hi H6) with (k := 0%nat); auto.
    + intros p Hp. apply HW. cbn. split; eauto.
    + intros p Hp. apply HR. cbn. left. split; eauto.
    + intros k c Hc. apply HR. cbn. eauto.
  - destruct OK as [es [ps [Hv [Hi Hf]]]]. rewrite (size_view _ _ _ _ Hv). destruct Hv as [H1 [H2 [H3 [H4 [H5 H6]]]]].
    destruct (positions_lwalk _ _ _ H2) as [b [en [-> Hw]]]. cbn [guard fst snd].
    apply (good_update m R W sid ps en op _ N Hi) with (k := 0%nat); auto.
    + intros p Hp. apply HW. cbn. split; eauto.
    + intros p Hp. apply HR. cbn. split; eauto.
  - destruct OK as [es [ps [Hv [Hi [Hf Ke]]]]]. rewrite (size_view _ _ _ _ Hv). destruct Hv as [H1 [H2 [H3 [H4 [H5 H6]]]]].
    destruct (build_spec _ _ _ _ Ke chk []) as [x [xe [h [-> X]]]]. cbn [guard fst snd sdim sbeg send app] in *. rewrite H1, Zlist_eqb_refl, dassert_true. cbn [guard].
    destruct (positions_lwalk _ _ _ H2) as [b [en [-> Hw]]]. cbn [guard fst snd]. rewrite prod_arr_small by auto.
    replace (Z.to_nat (zprod es)) with (length ps) by lia.
    replace (length ps * (operands e + 1) + N)%nat with (length ps * operands e + (length ps + N))%nat by lia.
    apply (good_copy fuel m R W e es h xe _ Ke) with (k := 0%nat); auto; try lia.
    + intros k c Hc. apply HR. cbn. eauto.
    + intros vs Hl. apply (good_write m R W sid ps en _ N Hi) with (k := 0%nat); auto.
      * intros p Hp. apply HW. cbn. split; eauto.
      * cbn [length]. rewrite Nat.eqb_refl, dassert_true. cbn [guard]. apply HK.
  - destruct OK as [es Ke]. rewrite (esize_ok _ _ _ _ Ke).
    destruct (build_spec _ _ _ _ Ke chk []) as [x [xe [h [-> X]]]]. cbn [guard fst snd sdim sbeg send app] in *.
    destruct (expr_ok_dims _ _ _ _ Ke) as [D1 [D2 D3]]. rewrite prod_arr_small by auto. assert (Hz := zprod_nonneg _ D2).
    apply (good_copy fuel m R W e es h xe _ Ke) with (k := 0%nat); auto; try lia.
    intros k c Hc. apply HR. cbn. eauto.
Qed.

(** ** threads *)
Definition thread_reads fuel (ts : list (@stmt V)) c : Prop := exists t, In t ts /\ looks fuel t c.
Definition thread_writes fuel (ts : list (@stmt V)) c : Prop := exists t, In t ts /\ writes fuel t c.
Lemma good_thread chk fuel m (R W : nat * Z -> Prop) : forall ts out, (forall t, In t ts -> ok_stmt fuel m t) ->
  (forall c, thread_reads fuel ts c -> R c) -> (forall c, thread_writes fuel ts c -> W c) -> good m R W (p_thread chk fuel ts out) (list_sum (map accesses ts)).
Proof.
  induction ts as [|t ts IH]; intros out OK HR HW; cbn [p_thread map]; [split; reflexivity|].
  change (list_sum (accesses t :: map accesses ts)) with (accesses t + list_sum (map accesses ts))%nat.
  apply good_stmt; [apply OK; left; reflexivity|intros c Hc; apply HR; exists t; split; [left; reflexivity|exact Hc]|intros c Hc; apply HW; exists t; split; [left; reflexivity|exact Hc]|].
  intros vs. apply IH; [intros u Hu; apply OK; right; exact Hu| |].
  - intros c [u [Hu Hc]]. apply HR. exists u. split; [right; exact Hu|exact Hc].
  - intros c [u [Hu Hc]]. apply HW. exists u. split; [right; exact Hu|exact Hc].
Qed.
Lemma ok_stmt_shape fuel m m' t : same_shape m m' -> ok_stmt fuel m t -> ok_stmt fuel m' t.
Proof.
  intros S. destruct t; cbn; intros H.
  - destruct H as [es [ps [H1 [H2 [H3 H4]]]]]. exists es, ps. repeat split; try apply H1; auto; [exact (inside_shape _ _ _ _ S H2)|exact (expr_ok_shape _ _ _ _ _ S H4)].
  - destruct H as [es [ps [H1 [H2 [H3 H4]]]]]. exists es, ps. repeat split; try apply H1; auto; [exact (inside_shape _ _ _ _ S H2)|exact (expr_ok_shape _ _ _ _ _ S H4)].
  - destruct H as [es [ps [H1 [H2 H3]]]]. exists es, ps. repeat split; try apply H1; auto. exact (inside_shape _ _ _ _ S H2).
  - destruct H as [es [ps [H1 [H2 [H3 H4]]]]]. exists es, ps. repeat split; try apply H1; auto; [exact (inside_shape _ _ _ _ S H2)|exact (expr_ok_shape _ _ _ _ _ S H4)].
  - destruct H as [es H]. exists es. exact (expr_ok_shape _ _ _ _ _ S H).
Qed.
Lemma sem_ok chk fuel m t : ok_stmt fuel m t -> exists vs m', sem chk fuel t m = Ok (vs, m') /\ same_shape m m'.
Proof.
  intros OK. assert (G : good m (fun _ => True) (fun _ => True) (p_stmt chk fuel t Done) (accesses t + 0)).
  { apply good_stmt; auto. intros vs. split; reflexivity. }
  destruct (alone_ok _ _ _ _ (proj1 G)) as [out [m' [E [S _]]]]. rewrite (alone_stmt chk fuel m t Done OK) in E.
  destruct (sem chk fuel t m) as [[vs m1]| | | |]; try discriminate E. cbn in E. injection E as <- <-. eauto.
Qed.
Lemma alone_thread chk fuel : forall ts out m, (forall t, In t ts -> ok_stmt fuel m t) -> exists vs m', sem_thread chk fuel ts m = Ok (vs, m') /\ same_shape m m' /\
  alone (p_thread chk fuel ts out) m = Some (out ++ vs, m').
Proof.
  induction ts as [|t ts IH]; intros out m OK; cbn [sem_thread p_thread].
  - exists [], m. rewrite app_nil_r. split; [reflexivity|]. split; [apply shape_refl|reflexivity].
  - assert (OKt := OK t ltac:(left; reflexivity)). rewrite (alone_stmt chk fuel m t _ OKt). destruct (sem_ok chk fuel m t OKt) as [vs [m1 [-> S]]]. cbn [bindO fst snd].
    destruct (IH (out ++ vs) m1) as [ws [m2 [-> [S2 A]]]]. { intros u Hu. apply (ok_stmt_shape _ _ _ _ S). apply OK. right. exact Hu. }
    rewrite A. cbn [bindO fst snd]. exists (vs ++ ws), m2. split; [reflexivity|]. split; [eapply shape_trans; eauto|]. rewrite app_assoc. reflexivity.
Qed.
Lemma in_turn_threads chk fuel : forall tss m, (forall ts t, In ts tss -> In t ts -> ok_stmt fuel m t) -> exists outs m', one_after_the_other chk fuel tss m = Ok (outs, m') /\
  in_turn (map (fun ts => p_thread chk fuel ts []) tss) m = Some (outs, m').
Proof.
  induction tss as [|ts tss IH]; intros m OK; cbn [one_after_the_other map in_turn]; [eauto|].
  destruct (alone_thread chk fuel ts [] m) as [vs [m1 [-> [S A]]]]; [intros t Ht; apply (OK ts t); [left; reflexivity|exact Ht]|]. rewrite A. cbn [bindO fst snd].
  destruct (IH m1) as [outs [m2 [-> A2]]]. { intros us t Hu Ht. apply (ok_stmt_shape _ _ _ _ S). apply (OK us t); [right; exact Hu|exact Ht]. }
  rewrite A2. cbn [bindO fst snd]. eauto.
Qed.
Lemma threads_fit chk fuel m tss : (forall ts t, In ts tss -> In t ts -> ok_stmt fuel m t) ->
  all_fit m (map (fun ts => (thread_reads fuel ts, thread_writes fuel ts)) tss) (map (fun ts => p_thread chk fuel ts []) tss) /\
  Forall2 takes (map (fun ts => p_thread chk fuel ts []) tss) (map (fun ts => list_sum (map accesses ts)) tss).
Proof.
  induction tss as [|ts tss IH]; intros OK; [split; constructor|]. cbn [map].
  destruct (good_thread chk fuel m (thread_reads fuel ts) (thread_writes fuel ts) ts []) as [G1 G2]; auto; [intros t Ht; apply (OK ts t); [left; reflexivity|exact Ht]|].
  destruct IH as [I1 I2]; [intros us t Hu Ht; apply (OK us t); [right; exact Hu|exact Ht]|]. split; constructor; auto.
Qed.
Lemma independent_apart fuel (tss : list (list (@stmt V))) : independent fuel tss -> apart (map (fun ts => (thread_reads fuel ts, thread_writes fuel ts)) tss).
Proof.
  intros H i j R W R' W' c N Ei Ej Hw. rewrite nth_error_map in Ei, Ej.
  destruct (nth_error tss i) as [ts|] eqn:E1; [|discriminate Ei]. destruct (nth_error tss j) as [us|] eqn:E2; [|discriminate Ej].
  injection Ei as <- <-. injection Ej as <- <-. destruct Hw as [t [Ht Hw]]. split.
  - intros [u [Hu Hc]]. apply (H i j ts us t u c); auto.
  - intros [u [Hu Hc]]. destruct (H i j ts us t u c); auto.
Qed.
End Proofs.
