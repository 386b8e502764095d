(** * SharedProofs: the memory of const_vector and index_view. *)

From Coq Require Import List Bool PeanoNat Lia.
From Verif Require Import Base Shared SharedSpec.
Import ListNotations.
Local Open Scope nat_scope.

Lemma upd_len {A} (l : list A) i v : length (upd_nat l i v) = length l.
Proof. revert i. induction l; intros [|i]; simpl; auto. Qed.
Lemma upd_same {A} (l : list A) i v : i < length l -> nth_error (upd_nat l i v) i = Some v.
Proof. revert i. induction l; intros [|i] H; simpl in *; try lia; auto. apply IHl. lia. Qed.
Lemma upd_other {A} (l : list A) i j v : i <> j -> nth_error (upd_nat l i v) j = nth_error l j.
Proof. revert i j. induction l; intros [|i] [|j] H; simpl; auto; try lia. Qed.
Lemma upd_id {A} (l : list A) i v : nth_error l i = Some v -> upd_nat l i v = l.
Proof. revert i. induction l; intros [|i] H; simpl in *; try discriminate; [injection H as ->; auto|rewrite IHl; auto]. Qed.
Lemma upd_upd {A} (l : list A) i v w : upd_nat (upd_nat l i v) i w = upd_nat l i w.
Proof. revert i. induction l; intros [|i]; simpl; auto. rewrite IHl. auto. Qed.
Lemma nth_lt {A} (l : list A) i v : nth_error l i = Some v -> i < length l.
Proof. intros H. apply nth_error_Some. congruence. Qed.
Lemma nth_new {A} (l : list A) v : nth_error (l ++ [v]) (length l) = Some v.
Proof. rewrite nth_error_app2 by lia. rewrite Nat.sub_diag. auto. Qed.
Lemma nth_old {A} (l l' : list A) i v : nth_error l i = Some v -> nth_error (l ++ l') i = Some v.
Proof. intros H. rewrite nth_error_app1; auto. apply nth_lt in H. auto. Qed.
Lemma nth_upd {A} (l : list A) i j v w : nth_error l i = Some w ->
  nth_error (upd_nat l i v) j = if Nat.eqb j i then Some v else nth_error l j.
Proof.
  intros H. destruct (Nat.eqb_spec j i) as [X|X]; [subst; apply upd_same; apply nth_lt in H; auto|apply upd_other; auto].
Qed.
Lemma nth_snoc {A} (l : list A) v j :
  nth_error (l ++ [v]) j = if Nat.eqb j (length l) then Some v else nth_error l j.
Proof.
  destruct (Nat.eqb_spec j (length l)) as [X|X]; [subst; apply nth_new|].
  destruct (Nat.lt_ge_cases j (length l)); [apply nth_error_app1; auto|].
  rewrite nth_error_app2 by lia. destruct (j - length l) as [|k] eqn:E; [lia|]. simpl.
  replace (nth_error (@nil A) k) with (@None A) by (destruct k; auto). symmetry. apply nth_error_None. lia.
Qed.

(** Counting. *)
Definition b2n (b : bool) : nat := if b then 1 else 0.
Fixpoint cnt {A} (f : A -> bool) (l : list A) : nat :=
  match l with [] => 0 | x :: l' => b2n (f x) + cnt f l' end.
Lemma cnt_app {A} (f : A -> bool) l m : cnt f (l ++ m) = cnt f l + cnt f m.
Proof. induction l; simpl; lia. Qed.
Lemma cnt_one {A} (f : A -> bool) x : cnt f [x] = b2n (f x).
Proof. simpl. lia. Qed.
Lemma cnt_upd {A} (f : A -> bool) l i x y : nth_error l i = Some x ->
  cnt f (upd_nat l i y) + b2n (f x) = cnt f l + b2n (f y).
Proof.
  revert i. induction l; intros [|i] H; simpl in *; try discriminate.
  - injection H as ->. lia.
  - apply IHl in H. lia.
Qed.
Lemma cnt_pos {A} (f : A -> bool) l i x : nth_error l i = Some x -> f x = true -> 0 < cnt f l.
Proof.
  revert i. induction l; intros [|i] H F; simpl in *; try discriminate.
  - injection H as ->. rewrite F. simpl. lia.
  - specialize (IHl _ H F). lia.
Qed.
Lemma cnt_ex {A} (f : A -> bool) l : 0 < cnt f l -> exists i x, nth_error l i = Some x /\ f x = true.
Proof.
  induction l; simpl; intros H; [lia|]. destruct (f a) eqn:E; [exists 0, a; auto|].
  destruct IHl as (i & x & Hi & Hx); [simpl in H; lia|]. exists (S i), x. auto.
Qed.

Definition sown (b : nat) (o : obj) : bool :=
  match o with OCv (Some c) | OView (Some (Some c)) _ _ _ => Nat.eqb c b | _ => false end.
Definition vown (b : nat) (o : obj) : bool := match o with OVec c => Nat.eqb c b | _ => false end.

Section S.
Variable T : Type.

Definition binv (x : option (blk T)) (s v : nat) : Prop :=
  match x with
  | Some (Shared _ c) => s = c /\ 0 < c /\ v = 0
  | Some (Owned _) => s = 0 /\ v = 1
  | Some Freed | None => s = 0 /\ v = 0
  end.

Definition hinv (h : heap T) (o : list obj) : Prop :=
  forall b, binv (nth_error h b) (cnt (sown b) o) (cnt (vown b) o).

Definition rel (h : heap T) (a : val T) (o : obj) : Prop :=
  match a, o with
  | VCv None, OCv None => True
  | VCv (Some l), OCv (Some b) => exists c, nth_error h b = Some (Shared l c)
  | VVec l, OVec b => nth_error h b = Some (Owned l)
  | VView (Some l), OView (Some (Some b)) b' off len =>
      b' = b /\ off = 0 /\ len = length l /\ exists c, nth_error h b = Some (Shared l c)
  | VView None, OView (Some None) _ _ _ => True
  | VBorrowed, OView None _ _ _ => True
  | VDead, ODead => True
  | _, _ => False
  end.

Record sim (a : list (val T)) (s : st T) : Prop := {
  sim_len : length a = length (objs s);
  sim_rel : forall i x o, nth_error a i = Some x -> nth_error (objs s) i = Some o -> rel (mem s) x o;
  sim_inv : hinv (mem s) (objs s) }.

(** Heaps that differ in counts, additions and freed blocks only. *)
Definition hmono (h h' : heap T) : Prop :=
  forall b, (forall l c, nth_error h b = Some (Shared l c) ->
             (exists c', nth_error h' b = Some (Shared l c')) \/ nth_error h' b = Some Freed)
         /\ (forall l, nth_error h b = Some (Owned l) -> nth_error h' b = Some (Owned l)).

Lemma hmono_refl h : hmono h h.
Proof. intros b. split; intros; eauto. Qed.
Lemma hmono_snoc h x : hmono h (h ++ [x]).
Proof. intros b. split; intros; [left; eexists|]; apply nth_old; eauto. Qed.

Lemma rel_mono h h' o x y : hmono h h' -> hinv h' o -> In y o -> rel h x y -> rel h' x y.
Proof.
  intros M I Hy R. apply In_nth_error in Hy. destruct Hy as [i Hi].
  destruct x as [[l|]|l|[l|]| |], y as [[b|]|b|[[b|]|] b' off len|]; simpl in *; auto.
  - destruct R as [c R]. destruct (proj1 (M b) _ _ R) as [X|X]; auto.
    pose proof (I b) as Ib. rewrite X in Ib. simpl in Ib.
    assert (0 < cnt (sown b) o) by (eapply cnt_pos; eauto; simpl; apply Nat.eqb_refl). lia.
  - apply M. auto.
  - destruct R as (-> & -> & -> & c & R). repeat split; auto. destruct (proj1 (M b) _ _ R) as [X|X]; auto.
    pose proof (I b) as Ib. rewrite X in Ib. simpl in Ib.
    assert (0 < cnt (sown b) o) by (eapply cnt_pos; eauto; simpl; apply Nat.eqb_refl). lia.
Qed.

(** Effects of incr and release on counts. *)
Definition pown (p : option nat) (b : nat) : nat := match p with Some c => b2n (Nat.eqb c b) | None => 0 end.

Lemma sown_cv p b : b2n (sown b (OCv p)) = pown p b.
Proof. destruct p; auto. Qed.
Lemma sown_view d c off len b : b2n (sown b (OView d c off len)) = pown (opt_ptr d) b.
Proof. destruct d as [[x|]|]; auto. Qed.

Lemma incr_ok h p o : hinv h o -> (forall b, p = Some b -> exists l c, nth_error h b = Some (Shared l c)) ->
  exists h', incr h p = Ok h' /\ hmono h h' /\ length h' = length h /\
    (forall b l c, nth_error h b = Some (Shared l c) -> exists c', nth_error h' b = Some (Shared l c')) /\
    (forall b s v, binv (nth_error h b) s v -> binv (nth_error h' b) (s + pown p b) v).
Proof.
  intros I H. destruct p as [b|]; simpl.
  - destruct (H b eq_refl) as (l & c & E). rewrite E. eexists. split; [reflexivity|].
    split; [|split; [apply upd_len|split]].
    + intros b'. rewrite (nth_upd _ _ _ _ _ E). destruct (Nat.eqb_spec b' b) as [X|X]; [subst|split; intros; eauto].
      rewrite E. split; [|intros; discriminate]. intros l' c' [= <- <-]. eauto.
    + intros b' l' c'. rewrite (nth_upd _ _ _ _ _ E). destruct (Nat.eqb_spec b' b) as [X|X]; [subst|eauto].
      rewrite E. intros [= <- <-]. eauto.
    + intros b' s v. rewrite (nth_upd _ _ _ _ _ E). destruct (Nat.eqb_spec b' b) as [X|X].
      * subst. rewrite E, Nat.eqb_refl. simpl. lia.
      * destruct (Nat.eqb_spec b b'); [congruence|]. simpl. rewrite Nat.add_0_r. auto.
  - exists h. split; auto. split; [apply hmono_refl|]. split; auto. split; [eauto|]. intros. rewrite Nat.add_0_r. auto.
Qed.

Lemma release_ok h p : (forall b, p = Some b -> exists l c, nth_error h b = Some (Shared l c)) ->
  (forall b, exists s v, binv (nth_error h b) s v) ->
  exists h', release h p = Ok h' /\ hmono h h' /\ length h' = length h /\
    (forall b s v, binv (nth_error h b) (s + pown p b) v -> binv (nth_error h' b) s v).
Proof.
  intros H I. destruct p as [b|]; simpl.
  - destruct (H b eq_refl) as (l & c & E). rewrite E.
    destruct (I b) as (s0 & v0 & Ib). rewrite E in Ib. simpl in Ib.
    destruct c as [|[|c]]; [lia| |]; (eexists; split; [reflexivity|]);
    (split; [|split; [apply upd_len|]]).
    + intros b'. rewrite (nth_upd _ _ _ _ _ E). destruct (Nat.eqb_spec b' b) as [X|X]; [subst|split; intros; eauto].
      rewrite E. split; [|intros; discriminate]. intros l' c' [= <- <-]. eauto.
    + intros b' s v. rewrite (nth_upd _ _ _ _ _ E). destruct (Nat.eqb_spec b' b) as [X|X].
      * subst. rewrite E, Nat.eqb_refl. simpl. lia.
      * destruct (Nat.eqb_spec b b'); [congruence|]. simpl. rewrite Nat.add_0_r. auto.
    + intros b'. rewrite (nth_upd _ _ _ _ _ E). destruct (Nat.eqb_spec b' b) as [X|X]; [subst|split; intros; eauto].
      rewrite E. split; [|intros; discriminate]. intros l' c' [= <- <-]. eauto.
    + intros b' s v. rewrite (nth_upd _ _ _ _ _ E). destruct (Nat.eqb_spec b' b) as [X|X].
      * subst. rewrite E, Nat.eqb_refl. simpl. lia.
      * destruct (Nat.eqb_spec b b'); [congruence|]. simpl. rewrite Nat.add_0_r. auto.
  - exists h. split; auto. split; [apply hmono_refl|]. split; auto. intros. rewrite Nat.add_0_r in *. auto.
Qed.

Lemma binv_eq x s v s' v' : binv x s v -> s = s' -> v = v' -> binv x s' v'.
Proof. intros H -> ->. exact H. Qed.

Lemma hmono_trans h1 h2 h3 o : hmono h1 h2 -> hmono h2 h3 ->
  (forall b l c, nth_error h1 b = Some (Shared l c) -> exists c', nth_error h2 b = Some (Shared l c')) -> hmono h1 h3 \/ o = 0.
Proof.
  intros A B C. left. intros b. split.
  - intros l c E. destruct (C _ _ _ E) as [c' E']. apply (proj1 (B b) _ _ E').
  - intros l E. apply B. apply A. auto.
Qed.

(** Objects of a simulated state. *)
Lemma sim_get a s i x : sim a s -> nth_error a i = Some x -> exists o, nth_error (objs s) i = Some o /\ rel (mem s) x o.
Proof.
  intros S H. destruct (nth_error (objs s) i) as [o|] eqn:E.
  - exists o. split; auto. eapply (sim_rel _ _ S); eauto.
  - apply nth_error_None in E. apply nth_lt in H. rewrite (sim_len _ _ S) in H. lia.
Qed.
Lemma sim_none a s i : sim a s -> nth_error a i = None -> nth_error (objs s) i = None.
Proof. intros S H. apply nth_error_None. rewrite <- (sim_len _ _ S). apply nth_error_None. auto. Qed.

Lemma rel_ptr_cv h v p : rel h (VCv v) (OCv p) -> forall b, p = Some b -> exists l c, nth_error h b = Some (Shared l c).
Proof. intros R b ->. destruct v; simpl in R; [destruct R; eauto|contradiction]. Qed.
Lemma rel_ptr_view h x d c off len : rel h x (OView d c off len) ->
  forall b, opt_ptr d = Some b -> exists l c, nth_error h b = Some (Shared l c).
Proof.
  intros R b E. destruct d as [[b'|]|]; simpl in E; try discriminate. injection E as ->.
  destruct x as [[l|]|l|[l|]| |]; simpl in R; try contradiction. destruct R as (_ & _ & _ & c' & R). eauto.
Qed.

(** Building the new simulation: replacement and addition of an object. *)
Lemma sim_intro a' h' o' :
  length a' = length o' -> hinv h' o' ->
  (forall i x o, nth_error a' i = Some x -> nth_error o' i = Some o -> exists h, hmono h h' /\ rel h x o) ->
  sim a' (mkSt h' o').
Proof.
  intros L I R. constructor; simpl; auto. intros i x o A B. destruct (R i x o A B) as (h & M & Rh).
  eapply rel_mono; eauto. eapply nth_error_In; eauto.
Qed.

Lemma hinv_any h o : hinv h o -> forall b, exists s v, binv (nth_error h b) s v.
Proof. intros I b. eauto. Qed.

Lemma sim_snoc a s x o h' :
  sim a s -> hmono (mem s) h' -> hinv h' (objs s ++ [o]) -> rel h' x o -> sim (a ++ [x]) (mkSt h' (objs s ++ [o])).
Proof.
  intros S M I R. apply sim_intro; [rewrite !app_length, (sim_len _ _ S); auto|auto|].
  intros i y p A B. rewrite nth_snoc in A. rewrite nth_snoc in B. rewrite (sim_len _ _ S) in A.
  destruct (Nat.eqb_spec i (length (objs s))).
  - injection A as ->. injection B as ->. exists h'. split; auto. apply hmono_refl.
  - exists (mem s). split; auto. eapply (sim_rel _ _ S); eauto.
Qed.

Lemma sim_upd a s i x0 o0 x o h' :
  sim a s -> nth_error a i = Some x0 -> nth_error (objs s) i = Some o0 ->
  hmono (mem s) h' -> hinv h' (upd_nat (objs s) i o) -> (exists h, hmono h h' /\ rel h x o) ->
  sim (upd_nat a i x) (mkSt h' (upd_nat (objs s) i o)).
Proof.
  intros S A0 B0 M I R. apply sim_intro; [rewrite !upd_len, (sim_len _ _ S); auto|auto|].
  intros k y p A B. rewrite (nth_upd _ _ _ _ _ A0) in A. rewrite (nth_upd _ _ _ _ _ B0) in B.
  destruct (Nat.eqb_spec k i).
  - injection A as ->. injection B as ->. auto.
  - exists (mem s). split; auto. eapply (sim_rel _ _ S); eauto.
Qed.


Lemma hinv_snoc_new h o x y :
  hinv h o -> binv (Some x) (b2n (sown (length h) y)) (b2n (vown (length h) y)) ->
  (forall b, b <> length h -> sown b y = false /\ vown b y = false) ->
  hinv (h ++ [x]) (o ++ [y]).
Proof.
  intros I B F b. rewrite !cnt_app. simpl. rewrite !Nat.add_0_r. rewrite nth_snoc. pose proof (I b) as Ib.
  destruct (Nat.eqb_spec b (length h)) as [X|X].
  - subst. assert (E : nth_error h (length h) = None) by (apply nth_error_None; lia).
    rewrite E in Ib. destruct Ib as [-> ->]. exact B.
  - destruct (F b X) as [-> ->]. simpl. rewrite !Nat.add_0_r. exact Ib.
Qed.


Lemma sim_upd2 a s i j xi xj oi oj x o y p h' :
  sim a s -> nth_error a i = Some xi -> nth_error a j = Some xj ->
  nth_error (objs s) i = Some oi -> nth_error (objs s) j = Some oj -> i <> j ->
  hmono (mem s) h' -> hinv h' (upd_nat (upd_nat (objs s) j p) i o) ->
  rel (mem s) x o -> rel (mem s) y p ->
  sim (upd_nat (upd_nat a j y) i x) (mkSt h' (upd_nat (upd_nat (objs s) j p) i o)).
Proof.
  intros S A0 A1 B0 B1 N M I R R'. apply sim_intro; [rewrite !upd_len, (sim_len _ _ S); auto|auto|].
  intros k z q A B.
  rewrite (nth_upd (upd_nat a j y) i k x xi) in A by (rewrite upd_other; auto).
  rewrite (nth_upd (upd_nat (objs s) j p) i k o oi) in B by (rewrite upd_other; auto).
  destruct (Nat.eqb_spec k i).
  - injection A as ->. injection B as ->. eauto.
  - rewrite (nth_upd _ _ _ _ _ A1) in A. rewrite (nth_upd _ _ _ _ _ B1) in B. destruct (Nat.eqb_spec k j).
    + injection A as ->. injection B as ->. eauto.
    + exists (mem s). split; auto. eapply (sim_rel _ _ S); eauto.
Qed.

Lemma sim_upd_snoc a s i x0 o0 x o y p h' :
  sim a s -> nth_error a i = Some x0 -> nth_error (objs s) i = Some o0 ->
  hinv h' (upd_nat (objs s) i o ++ [p]) ->
  (forall k z q, k <> i -> nth_error a k = Some z -> nth_error (objs s) k = Some q -> exists h, hmono h h' /\ rel h z q) ->
  rel h' x o -> rel h' y p ->
  sim (upd_nat a i x ++ [y]) (mkSt h' (upd_nat (objs s) i o ++ [p])).
Proof.
  intros S A0 B0 I M R R'. apply sim_intro; [rewrite !app_length, !upd_len, (sim_len _ _ S); auto|auto|].
  intros k z q A B. rewrite nth_snoc in A. rewrite nth_snoc in B. rewrite upd_len in A. rewrite upd_len in B. rewrite (sim_len _ _ S) in A.
  destruct (Nat.eqb_spec k (length (objs s))).
  - injection A as ->. injection B as ->. exists h'. split; auto. apply hmono_refl.
  - rewrite (nth_upd _ _ _ _ _ A0) in A. rewrite (nth_upd _ _ _ _ _ B0) in B. destruct (Nat.eqb_spec k i).
    + injection A as ->. injection B as ->. exists h'. split; auto. apply hmono_refl.
    + eauto.
Qed.

Lemma rel_any_cv h x p : rel h x (OCv p) -> exists v, x = VCv v.
Proof. destruct x as [[l|]|l|[l|]| |], p; simpl; try contradiction; eauto. Qed.
Lemma rel_any_view h x d b off len : rel h x (OView d b off len) -> (exists v, x = VView v) \/ x = VBorrowed.
Proof. destruct x as [[l|]|l|[l|]| |], d as [[c|]|]; simpl; try contradiction; eauto. Qed.
Lemma rel_cv h v o : rel h (VCv v) o -> exists p, o = OCv p.
Proof. destruct v, o as [[p|]|b|[[b|]|] ? ? ?|]; simpl; try contradiction; eauto. Qed.
Lemma rel_view h v o : rel h (VView v) o -> exists p b off len, o = OView (Some p) b off len.
Proof. destruct v, o as [[p|]|b|[[b|]|] ? ? ?|]; simpl; try contradiction; eauto 6. Qed.
Lemma rel_borrowed h o : rel h VBorrowed o -> exists b off len, o = OView None b off len.
Proof. destruct o as [[p|]|b|[[b|]|] ? ? ?|]; simpl; try contradiction; eauto. Qed.
Lemma rel_vec h l o : rel h (VVec l) o -> exists b, o = OVec b /\ nth_error h b = Some (Owned l).
Proof. destruct o as [[p|]|b|[[b|]|] ? ? ?|]; simpl; try contradiction; eauto. Qed.
Lemma rel_dead h o : rel h VDead o -> o = ODead.
Proof. destruct o as [[p|]|b|[[b|]|] ? ? ?|]; simpl; try contradiction; eauto. Qed.
Lemma rel_view_moved h x d b off len : rel h x (OView d b off len) -> rel h (vmoved T x) (OView (moved d) b off len).
Proof. destruct x as [[l|]|l|[l|]| |], d as [[c|]|]; simpl; try contradiction; eauto. Qed.

Ltac kind S i :=
  let E := fresh "E" in let x := fresh "x" in let o := fresh "o" in let O := fresh "O" in let R := fresh "R" in
  let v := fresh "v" in let l := fresh "l" in let off := fresh "off" in let len := fresh "len" in let X := fresh "X" in
  match type of S with sim ?a ?s =>
  destruct (nth_error a i) as [x|] eqn:E;
  [destruct (sim_get _ _ _ _ S E) as (o & O & R); rewrite O;
   destruct x as [v|l|v| |];
   [let p := fresh "p" in destruct (rel_cv _ _ _ R) as (p & X); subst o
   |let b := fresh "b" in let H := fresh "H" in destruct (rel_vec _ _ _ R) as (b & X & H); subst o
   |let p := fresh "p" in let b := fresh "b" in destruct (rel_view _ _ _ R) as (p & b & off & len & X); subst o
   |let b := fresh "b" in destruct (rel_borrowed _ _ R) as (b & off & len & X); subst o
   |apply rel_dead in R; subst o; rewrite ?O]
  |let O := fresh "O" in assert (O := sim_none _ _ _ S E); rewrite O]
  end.

(** Operations on the simulated states. *)
Lemma sexec_sim a s c : sim a s ->
  match vexec c a with
  | Some a' => exists s', sexec c s = Ok s' /\ sim a' s'
  | None => sexec c s = UB
  end.
Proof.
  intros S. pose proof (sim_inv _ _ S) as I. pose proof (hinv_any _ _ I) as IA.
  destruct c; simpl.
  - (* NewCv *)
    eexists. split; [reflexivity|]. apply sim_snoc; auto; [apply hmono_snoc| |].
    + apply hinv_snoc_new; auto.
      * simpl. rewrite Nat.eqb_refl. simpl. lia.
      * intros b X. simpl. split; auto. apply Nat.eqb_neq. auto.
    + simpl. exists 1. apply nth_new.
  - (* CopyCv *)
    kind S i; auto.
    destruct (incr_ok _ p _ I (rel_ptr_cv _ _ _ R)) as (h' & E1 & M & L & Sh & C). rewrite E1. simpl.
    eexists. split; [reflexivity|].
    assert (I' : hinv h' (objs s ++ [OCv p])).
    { intros b. rewrite !cnt_app. rewrite !cnt_one. rewrite sown_cv. simpl. rewrite !Nat.add_0_r. apply C. apply I. }
    apply sim_snoc; auto. apply (rel_mono (mem s) h' (objs s ++ [OCv p])); auto. apply in_or_app. simpl. auto.
  - (* MoveCv *)
    kind S i; auto. eexists. split; [reflexivity|].
    eapply sim_upd_snoc; eauto.
    + intros b. rewrite !cnt_app. rewrite !cnt_one. rewrite sown_cv. pose proof (cnt_upd (sown b) _ _ _ (OCv None) O) as C1.
      pose proof (cnt_upd (vown b) _ _ _ (OCv None) O) as C2. rewrite !sown_cv in C1. simpl in C1, C2.
      eapply binv_eq; [apply I| |]; simpl; lia.
    + intros k z q _ A B. exists (mem s). split; [apply hmono_refl|]. eapply (sim_rel _ _ S); eauto.
    + simpl. auto.
  - (* AssignCv *)
    kind S i; auto; kind S j; auto.
    destruct (incr_ok _ p0 _ I (rel_ptr_cv _ _ _ R0)) as (h1 & E1 & M1 & L1 & Sh1 & C1). rewrite E1. simpl.
    assert (P : forall b, p = Some b -> exists l c, nth_error h1 b = Some (Shared l c)).
    { intros b Hb. destruct (rel_ptr_cv _ _ _ R b Hb) as (l & c & X). destruct (Sh1 _ _ _ X). eauto. }
    assert (IA1 : forall b, exists s v, binv (nth_error h1 b) s v) by (intros b; eexists; eexists; apply C1, I).
    destruct (release_ok _ p P IA1) as (h2 & E2 & M2 & L2 & C2). rewrite E2. simpl.
    eexists. split; [reflexivity|]. eapply sim_upd; eauto.
    + destruct (hmono_trans _ _ _ 1 M1 M2 Sh1); auto; discriminate.
    + intros b. pose proof (cnt_upd (sown b) _ _ _ (OCv p0) O) as D1.
      pose proof (cnt_upd (vown b) _ _ _ (OCv p0) O) as D2. rewrite !sown_cv in D1. simpl in D2.
      apply C2. eapply binv_eq; [apply C1, I| |]; lia.
    + exists (mem s). split; auto. destruct (hmono_trans _ _ _ 1 M1 M2 Sh1); auto; discriminate.
  - (* MoveAssignCv *)
    kind S i; auto; kind S j; auto. destruct (Nat.eqb_spec i j) as [X|X].
    + subst j. rewrite E in E0. injection E0 as ->. eexists. split; [reflexivity|].
      rewrite upd_upd, upd_id by auto. destruct s. auto.
    + destruct (release_ok _ p (rel_ptr_cv _ _ _ R) IA) as (h2 & E2 & M2 & L2 & C2). rewrite E2. simpl.
      eexists. split; [reflexivity|]. eapply sim_upd2; eauto; [|simpl; auto].
      intros b. apply C2.
      assert (O' : nth_error (upd_nat (objs s) j (OCv None)) i = Some (OCv p)) by (rewrite upd_other; auto).
      pose proof (cnt_upd (sown b) _ _ _ (OCv p0) O') as D1.
      pose proof (cnt_upd (vown b) _ _ _ (OCv p0) O') as D2. rewrite !sown_cv in D1. simpl in D2.
      pose proof (cnt_upd (sown b) _ _ _ (OCv None) O0) as D3.
      pose proof (cnt_upd (vown b) _ _ _ (OCv None) O0) as D4. rewrite !sown_cv in D3. simpl in D3, D4.
      eapply binv_eq; [apply I| |]; lia.
  - (* NewVec *)
    eexists. split; [reflexivity|]. apply sim_snoc; auto; [apply hmono_snoc| |].
    + apply hinv_snoc_new; auto.
      * simpl. rewrite Nat.eqb_refl. simpl. lia.
      * intros b X. simpl. split; auto. apply Nat.eqb_neq. auto.
    + simpl. apply nth_new.
  - (* VecSet *)
    kind S i; auto. rewrite H. destruct (p <? length l); auto. eexists. split; [reflexivity|].
    rewrite <- (upd_id (objs s) i (OVec b)) at 1 by auto.
    assert (I' : hinv (upd_nat (mem s) b (Owned (upd_nat l p x))) (upd_nat (objs s) i (OVec b))).
    { intros b'. rewrite (upd_id (objs s)) by auto. rewrite (nth_upd _ _ _ _ _ H). pose proof (I b') as Ib.
      destruct (Nat.eqb_spec b' b) as [X|X]; auto. subst. rewrite H in Ib. exact Ib. }
    apply sim_intro; auto; [rewrite !upd_len, (sim_len _ _ S); auto|].
    intros k y q A B. rewrite (nth_upd _ _ _ _ _ E) in A. rewrite (nth_upd _ _ _ _ _ O) in B.
    eexists. split; [apply hmono_refl|]. destruct (Nat.eqb_spec k i) as [X|X].
    + injection A as <-. injection B as <-. simpl. apply upd_same. apply nth_lt in H. auto.
    + pose proof (sim_rel _ _ S _ _ _ A B) as Rq.
      destruct y as [[l'|]|l'|[l'|]| |], q as [[c|]|c|[[c|]|] c' off len|]; simpl in *; auto.
      * destruct Rq as (n & Rq). exists n. rewrite upd_other; auto. congruence.
      * rewrite upd_other; auto. intros ->.
        assert (B' : nth_error (upd_nat (objs s) i ODead) k = Some (OVec c)) by (rewrite upd_other; auto).
        pose proof (cnt_pos (vown c) _ _ _ B' (Nat.eqb_refl c)) as Pk.
        pose proof (cnt_upd (vown c) _ _ _ ODead O) as D. simpl in D. rewrite Nat.eqb_refl in D. simpl in D.
        pose proof (I c) as Ic. rewrite H in Ic. simpl in Ic. lia.
      * destruct Rq as (-> & -> & -> & n & Rq). repeat split; auto. exists n. rewrite upd_other; auto. congruence.
  - (* VecRealloc *)
    kind S i; auto. rewrite H. eexists. split; [reflexivity|].
    assert (NB : b <> length (mem s)) by (apply nth_lt in H; lia).
    assert (I' : hinv (upd_nat (mem s) b Freed ++ [Owned l]) (upd_nat (objs s) i (OVec (length (mem s))))).
    { intros b'. rewrite nth_snoc, upd_len. rewrite (nth_upd _ _ _ _ _ H).
      pose proof (cnt_upd (sown b') _ _ _ (OVec (length (mem s))) O) as D1.
      pose proof (cnt_upd (vown b') _ _ _ (OVec (length (mem s))) O) as D2. simpl in D1, D2.
      pose proof (I b') as Ib. destruct (Nat.eqb_spec b' (length (mem s))) as [X|X].
      - subst. assert (EN : nth_error (mem s) (length (mem s)) = None) by (apply nth_error_None; lia).
        rewrite EN in Ib. rewrite Nat.eqb_refl in D2. destruct (Nat.eqb_spec b (length (mem s))); [lia|]. simpl in *. lia.
      - destruct (Nat.eqb_spec (length (mem s)) b') as [Y|Y]; [lia|]. destruct (Nat.eqb_spec b' b) as [Z|Z].
        + subst. rewrite H in Ib. rewrite Nat.eqb_refl in D2. simpl in *. lia.
        + destruct (Nat.eqb_spec b b') as [Z'|Z']; [lia|]. simpl in *. eapply binv_eq; [exact Ib| |]; lia. }
    apply sim_intro; auto; [rewrite !upd_len, (sim_len _ _ S); auto|].
    intros k y q A B. rewrite (nth_upd _ _ _ _ _ E) in A. rewrite (nth_upd _ _ _ _ _ O) in B.
    eexists. split; [apply hmono_refl|]. destruct (Nat.eqb_spec k i) as [X|X].
    + injection A as <-. injection B as <-. simpl. rewrite nth_snoc, upd_len, Nat.eqb_refl. auto.
    + pose proof (sim_rel _ _ S _ _ _ A B) as Rq.
      destruct y as [[l'|]|l'|[l'|]| |], q as [[c|]|c|[[c|]|] c' off len|]; simpl in *; auto.
      * destruct Rq as (n & Rq). exists n. apply nth_old. rewrite upd_other; auto. congruence.
      * apply nth_old. rewrite upd_other; auto. intros ->.
        assert (B' : nth_error (upd_nat (objs s) i ODead) k = Some (OVec c)) by (rewrite upd_other; auto).
        pose proof (cnt_pos (vown c) _ _ _ B' (Nat.eqb_refl c)) as Pk.
        pose proof (cnt_upd (vown c) _ _ _ ODead O) as D. simpl in D. rewrite Nat.eqb_refl in D. simpl in D.
        pose proof (I c) as Ic. rewrite H in Ic. simpl in Ic. lia.
      * destruct Rq as (-> & -> & -> & n & Rq). repeat split; auto. exists n. apply nth_old. rewrite upd_other; auto. congruence.
  - (* ViewCopyCv *)
    kind S i; auto.
    destruct (incr_ok _ p _ I (rel_ptr_cv _ _ _ R)) as (h' & E1 & M & L & Sh & C). rewrite E1. simpl.
    destruct v as [l|]; destruct p as [b|]; simpl in R; try contradiction; simpl; auto.
    destruct R as (c & R). destruct (Sh _ _ _ R) as (c' & R'). rewrite R'. simpl. eexists. split; [reflexivity|].
    apply sim_snoc; auto.
    + intros b'. rewrite !cnt_app. rewrite !cnt_one. rewrite !Nat.add_0_r. apply C. apply I.
    + simpl. repeat split; auto. eauto.
  - (* ViewMoveCv *)
    kind S i; auto.
    destruct v as [l|]; destruct p as [b|]; simpl in R; try contradiction; simpl; auto.
    destruct R as (c & R). rewrite R. simpl. eexists. split; [reflexivity|].
    eapply sim_upd_snoc; eauto.
    + intros b'. rewrite !cnt_app. rewrite !cnt_one. pose proof (cnt_upd (sown b') _ _ _ (OCv None) O) as C1.
      pose proof (cnt_upd (vown b') _ _ _ (OCv None) O) as C2. simpl in C1, C2.
      eapply binv_eq; [apply I| |]; simpl; lia.
    + intros k z q _ A B. exists (mem s). split; [apply hmono_refl|]. eapply (sim_rel _ _ S); eauto.
    + simpl. auto.
    + simpl. repeat split; eauto.
  - (* ViewBorrow *)
    kind S i; auto. rewrite H. destruct (off + len <=? length l); auto. eexists. split; [reflexivity|].
    apply sim_snoc; auto; [apply hmono_refl| |simpl; auto].
    intros b'. rewrite !cnt_app. rewrite !cnt_one. rewrite !Nat.add_0_r. apply I.
  - (* ViewMoveVec *)
    kind S i; auto. rewrite H. eexists. split; [reflexivity|].
    assert (NB : b <> length (mem s)) by (apply nth_lt in H; lia).
    eapply sim_upd_snoc; eauto.
    + intros b'. rewrite nth_snoc, upd_len. rewrite (nth_upd _ _ _ _ _ H). rewrite !cnt_app. rewrite !cnt_one.
      pose proof (cnt_upd (sown b') _ _ _ (OVec (length (mem s))) O) as D1.
      pose proof (cnt_upd (vown b') _ _ _ (OVec (length (mem s))) O) as D2. simpl in D1, D2.
      cbn [sown vown].
      pose proof (I b') as Ib. destruct (Nat.eqb_spec b' (length (mem s))) as [X|X].
      * subst. assert (EN : nth_error (mem s) (length (mem s)) = None) by (apply nth_error_None; lia).
        rewrite EN in Ib. rewrite Nat.eqb_refl in D2. destruct (Nat.eqb_spec b (length (mem s))); [lia|]. simpl in *. lia.
      * destruct (Nat.eqb_spec (length (mem s)) b') as [Y|Y]; [lia|]. destruct (Nat.eqb_spec b' b) as [Z|Z].
        -- subst. rewrite H in Ib. rewrite Nat.eqb_refl in *. simpl in *. lia.
        -- destruct (Nat.eqb_spec b b') as [Z'|Z']; [lia|]. simpl in *. eapply binv_eq; [exact Ib| |]; lia.
    + intros k y q X A B. pose proof (sim_rel _ _ S _ _ _ A B) as Rq. eexists. split; [apply hmono_refl|].
      destruct y as [[l'|]|l'|[l'|]| |], q as [[c|]|c|[[c|]|] c' off len|]; simpl in *; auto.
      * destruct Rq as (n & Rq). exists n. apply nth_old. rewrite upd_other; auto. congruence.
      * apply nth_old. rewrite upd_other; auto. intros ->.
        assert (B' : nth_error (upd_nat (objs s) i ODead) k = Some (OVec c)) by (rewrite upd_other; auto).
        pose proof (cnt_pos (vown c) _ _ _ B' (Nat.eqb_refl c)) as Pk.
        pose proof (cnt_upd (vown c) _ _ _ ODead O) as D. simpl in D. rewrite Nat.eqb_refl in D. simpl in D.
        pose proof (I c) as Ic. rewrite H in Ic. simpl in Ic. lia.
      * destruct Rq as (-> & -> & -> & n & Rq). repeat split; auto. exists n. apply nth_old. rewrite upd_other; auto. congruence.
    + simpl. rewrite nth_snoc, upd_len, Nat.eqb_refl. auto.
    + simpl. repeat split; auto. exists 1. apply nth_old. apply upd_same. apply nth_lt in H. auto.
  - (* ViewRange *)
    eexists. split; [reflexivity|]. apply sim_snoc; auto; [apply hmono_snoc| |].
    + apply hinv_snoc_new; auto.
      * simpl. rewrite Nat.eqb_refl. simpl. lia.
      * intros b X. simpl. split; auto. apply Nat.eqb_neq. auto.
    + simpl. repeat split; auto. exists 1. apply nth_new.
  - (* CopyView *)
    assert (G : forall x d b off len, nth_error a i = Some x -> nth_error (objs s) i = Some (OView d b off len) ->
              rel (mem s) x (OView d b off len) ->
              exists s', (let* h' := incr (mem s) (opt_ptr d) in Ok (mkSt h' (objs s ++ [OView d b off len]))) = Ok s' /\ sim (a ++ [x]) s').
    { intros x d b off len E O R.
      destruct (incr_ok _ (opt_ptr d) _ I (rel_ptr_view _ _ _ _ _ _ R)) as (h' & E1 & M & L & Sh & C). rewrite E1. simpl.
      eexists. split; [reflexivity|].
      assert (I' : hinv h' (objs s ++ [OView d b off len])).
      { intros b'. rewrite !cnt_app. rewrite !cnt_one. rewrite sown_view. simpl. rewrite !Nat.add_0_r. apply C. apply I. }
      apply sim_snoc; auto. apply (rel_mono (mem s) h' (objs s ++ [OView d b off len])); auto. apply in_or_app. simpl. auto. }
    kind S i; auto; apply (G _ _ _ _ _ eq_refl O R).
  - (* MoveView *)
    assert (G : forall x d b off len, nth_error a i = Some x -> nth_error (objs s) i = Some (OView d b off len) ->
              rel (mem s) x (OView d b off len) ->
              sim (upd_nat a i (vmoved T x) ++ [x]) (mkSt (mem s) (upd_nat (objs s) i (OView (moved d) b off len) ++ [OView d b off len]))).
    { intros x d b off len E O R. eapply sim_upd_snoc; eauto.
      - intros b'. rewrite !cnt_app. rewrite !cnt_one. rewrite sown_view.
        pose proof (cnt_upd (sown b') _ _ _ (OView (moved d) b off len) O) as C1.
        pose proof (cnt_upd (vown b') _ _ _ (OView (moved d) b off len) O) as C2. rewrite !sown_view in C1. simpl in C2.
        assert (EM : pown (opt_ptr (moved d)) b' = 0) by (destruct d; auto). rewrite EM in C1.
        eapply binv_eq; [apply I| |]; simpl; lia.
      - intros k z q _ A B. exists (mem s). split; [apply hmono_refl|]. eapply (sim_rel _ _ S); eauto.
      - apply rel_view_moved. auto. }
    kind S i; auto; (eexists; split; [reflexivity|]).
    + apply (G _ _ _ _ _ eq_refl O R).
    + pose proof (G _ _ _ _ _ eq_refl O R) as G'. simpl in G'. rewrite (upd_id a) in G' by auto. exact G'.
  - (* AssignView *)
    assert (G : forall x d b off len x' d' b' off' len',
              nth_error a i = Some x -> nth_error (objs s) i = Some (OView d b off len) -> rel (mem s) x (OView d b off len) ->
              nth_error a j = Some x' -> nth_error (objs s) j = Some (OView d' b' off' len') -> rel (mem s) x' (OView d' b' off' len') ->
              exists s', (let* h1 := incr (mem s) (opt_ptr d') in let* h2 := release h1 (opt_ptr d) in
                          Ok (mkSt h2 (upd_nat (objs s) i (OView d' b' off' len')))) = Ok s' /\ sim (upd_nat a i x') s').
    { intros x d b off len x' d' b' off' len' E O R E0 O0 R0.
      destruct (incr_ok _ (opt_ptr d') _ I (rel_ptr_view _ _ _ _ _ _ R0)) as (h1 & E1 & M1 & L1 & Sh1 & C1). rewrite E1. simpl.
      assert (P : forall b, opt_ptr d = Some b -> exists l c, nth_error h1 b = Some (Shared l c)).
      { intros k Hb. destruct (rel_ptr_view _ _ _ _ _ _ R k Hb) as (l & c & X). destruct (Sh1 _ _ _ X). eauto. }
      assert (IA1 : forall b, exists s v, binv (nth_error h1 b) s v) by (intros k; eexists; eexists; apply C1, I).
      destruct (release_ok _ (opt_ptr d) P IA1) as (h2 & E2 & M2 & L2 & C2). rewrite E2. simpl.
      eexists. split; [reflexivity|]. eapply sim_upd; eauto.
      - destruct (hmono_trans _ _ _ 1 M1 M2 Sh1); auto; discriminate.
      - intros k. pose proof (cnt_upd (sown k) _ _ _ (OView d' b' off' len') O) as D1.
        pose proof (cnt_upd (vown k) _ _ _ (OView d' b' off' len') O) as D2. rewrite !sown_view in D1. simpl in D2.
        apply C2. eapply binv_eq; [apply C1, I| |]; lia.
      - exists (mem s). split; auto. destruct (hmono_trans _ _ _ 1 M1 M2 Sh1); auto; discriminate. }
    kind S i; auto; kind S j; auto; apply (G _ _ _ _ _ _ _ _ _ _ eq_refl O R eq_refl O0 R0).
  - (* MoveAssignView *)
    assert (G : forall x d b off len x' d' b' off' len',
              nth_error a i = Some x -> nth_error (objs s) i = Some (OView d b off len) -> rel (mem s) x (OView d b off len) ->
              nth_error a j = Some x' -> nth_error (objs s) j = Some (OView d' b' off' len') -> rel (mem s) x' (OView d' b' off' len') ->
              exists s', (if i =? j then Ok s else let* h1 := release (mem s) (opt_ptr d) in
                          Ok (mkSt h1 (upd_nat (upd_nat (objs s) j (OView (moved d') b' off' len')) i (OView d' b' off' len')))) = Ok s'
                         /\ sim (upd_nat (upd_nat a j (vmoved T x')) i x') s').
    { intros x d b off len x' d' b' off' len' E O R E0 O0 R0. destruct (Nat.eqb_spec i j) as [X|X].
      - subst j. rewrite E in E0. injection E0 as ->. eexists. split; [reflexivity|].
        rewrite upd_upd, upd_id by auto. auto.
      - destruct (release_ok _ (opt_ptr d) (rel_ptr_view _ _ _ _ _ _ R) IA) as (h2 & E2 & M2 & L2 & C2). rewrite E2. simpl.
        eexists. split; [reflexivity|]. eapply sim_upd2; eauto; [|apply rel_view_moved; auto].
        intros k. apply C2.
        assert (O' : nth_error (upd_nat (objs s) j (OView (moved d') b' off' len')) i = Some (OView d b off len)) by (rewrite upd_other; auto).
        pose proof (cnt_upd (sown k) _ _ _ (OView d' b' off' len') O') as D1.
        pose proof (cnt_upd (vown k) _ _ _ (OView d' b' off' len') O') as D2. rewrite !sown_view in D1. simpl in D2.
        pose proof (cnt_upd (sown k) _ _ _ (OView (moved d') b' off' len') O0) as D3.
        pose proof (cnt_upd (vown k) _ _ _ (OView (moved d') b' off' len') O0) as D4. rewrite !sown_view in D3. simpl in D4.
        assert (EM : pown (opt_ptr (moved d')) k = 0) by (destruct d'; auto). rewrite EM in D3.
        eapply binv_eq; [apply I| |]; lia. }
    kind S i; auto; kind S j; auto; try (apply (G _ _ _ _ _ _ _ _ _ _ eq_refl O R eq_refl O0 R0));
    (destruct (G _ _ _ _ _ _ _ _ _ _ eq_refl O R eq_refl O0 R0) as (s' & E1 & S1); exists s'; split; [exact E1|]; simpl in S1;
     rewrite (upd_id a) in S1 by auto; exact S1).
  - (* Destroy *)
    kind S i; auto.
    + destruct (release_ok _ p (rel_ptr_cv _ _ _ R) IA) as (h2 & E2 & M2 & L2 & C2). rewrite E2. simpl.
      eexists. split; [reflexivity|]. eapply sim_upd; eauto; [|exists h2; split; [apply hmono_refl|simpl; auto]].
      intros k. apply C2. pose proof (cnt_upd (sown k) _ _ _ ODead O) as D1.
      pose proof (cnt_upd (vown k) _ _ _ ODead O) as D2. rewrite !sown_cv in D1. simpl in D1, D2.
      eapply binv_eq; [apply I| |]; lia.
    + rewrite H. eexists. split; [reflexivity|].
      assert (I' : hinv (upd_nat (mem s) b Freed) (upd_nat (objs s) i ODead)).
      { intros b'. rewrite (nth_upd _ _ _ _ _ H).
        pose proof (cnt_upd (sown b') _ _ _ ODead O) as D1.
        pose proof (cnt_upd (vown b') _ _ _ ODead O) as D2. simpl in D1, D2. pose proof (I b') as Ib.
        destruct (Nat.eqb_spec b' b) as [Z|Z].
        - subst. rewrite H in Ib. rewrite Nat.eqb_refl in D2. simpl in *. lia.
        - destruct (Nat.eqb_spec b b') as [Z'|Z']; [lia|]. simpl in *. eapply binv_eq; [exact Ib| |]; lia. }
      apply sim_intro; auto; [rewrite !upd_len, (sim_len _ _ S); auto|].
      intros k y q A B. pose proof B as B0. rewrite (nth_upd _ _ _ _ _ E) in A. rewrite (nth_upd _ _ _ _ _ O) in B.
      eexists. split; [apply hmono_refl|]. destruct (Nat.eqb_spec k i) as [X|X].
      * injection A as <-. injection B as <-. simpl. auto.
      * pose proof (sim_rel _ _ S _ _ _ A B) as Rq.
        destruct y as [[l'|]|l'|[l'|]| |], q as [[c|]|c|[[c|]|] c' off len|]; simpl in *; auto.
        -- destruct Rq as (n & Rq). exists n. rewrite upd_other; auto. congruence.
        -- rewrite upd_other; auto. intros ->.
           pose proof (cnt_pos (vown c) _ _ _ B0 (Nat.eqb_refl c)) as Pk.
           pose proof (I' c) as Ic. rewrite upd_same in Ic by (apply nth_lt in H; auto). simpl in Ic. lia.
        -- destruct Rq as (-> & -> & -> & n & Rq). repeat split; auto. exists n. rewrite upd_other; auto. congruence.
    + destruct (release_ok _ (opt_ptr (Some p)) (rel_ptr_view _ _ _ _ _ _ R) IA) as (h2 & E2 & M2 & L2 & C2). rewrite E2. simpl.
      eexists. split; [reflexivity|]. eapply sim_upd; eauto; [|exists h2; split; [apply hmono_refl|simpl; auto]].
      intros k. apply C2. pose proof (cnt_upd (sown k) _ _ _ ODead O) as D1.
      pose proof (cnt_upd (vown k) _ _ _ ODead O) as D2. rewrite !sown_view in D1. simpl in D1, D2.
      eapply binv_eq; [apply I| |]; simpl; lia.
    + eexists. split; [reflexivity|]. eapply sim_upd; eauto; [apply hmono_refl| |exists (mem s); split; [apply hmono_refl|simpl; auto]].
      intros k. pose proof (cnt_upd (sown k) _ _ _ ODead O) as D1.
      pose proof (cnt_upd (vown k) _ _ _ ODead O) as D2. simpl in D1, D2.
      eapply binv_eq; [apply I| |]; lia.
Qed.

Lemma sim_init : sim [] init.
Proof.
  constructor; simpl; auto.
  - intros i x o H. destruct i; discriminate.
  - intros b. destruct b; simpl; auto.
Qed.

Lemma srun_sim cs : forall a s, sim a s ->
  match vrun cs a with
  | Some a' => exists s', srun cs s = Ok s' /\ sim a' s'
  | None => srun cs s = UB
  end.
Proof.
  induction cs as [|c cs IH]; intros a s S; simpl; [eauto|].
  pose proof (sexec_sim a s c S) as H. destruct (vexec c a) as [a'|].
  - destruct H as (s' & E & S'). rewrite E. simpl. apply IH. auto.
  - rewrite H. auto.
Qed.

Lemma sim_contents a s i x l : sim a s -> nth_error a i = Some x -> value x = Some l -> contents s i = Ok l.
Proof.
  intros S E V. destruct (sim_get _ _ _ _ S E) as (o & O & R). unfold contents. rewrite O.
  destruct x as [[l'|]|l'|[l'|]| |]; simpl in V; try discriminate; injection V as ->.
  - destruct (rel_cv _ _ _ R) as (p & ->). destruct p; simpl in R; [|contradiction]. destruct R as (c & R). simpl. rewrite R. auto.
  - destruct (rel_vec _ _ _ R) as (b & -> & H). rewrite H. auto.
  - destruct (rel_view _ _ _ R) as (p & b & off & len & ->). destruct p; simpl in R; [|contradiction].
    destruct R as (-> & -> & -> & c & R). unfold read_range. rewrite R. simpl. rewrite Nat.leb_refl, firstn_all. auto.
Qed.

Lemma keeps_iff o b : keeps o b <-> sown b o = true \/ vown b o = true.
Proof.
  unfold keeps. split.
  - intros [X|[(c & off & len & X)|X]]; subst o; simpl; rewrite Nat.eqb_refl; auto.
  - destruct o as [[c|]|c|[[c|]|] c' off len|]; simpl; intros [H|H]; try discriminate; apply Nat.eqb_eq in H; subst; eauto 8.
Qed.

Lemma cnt_zero {A} (f : A -> bool) l : cnt f l = 0 <-> forall i x, nth_error l i = Some x -> f x = false.
Proof.
  split.
  - intros H i x E. destruct (f x) eqn:F; auto. pose proof (cnt_pos f l i x E F). lia.
  - intros H. destruct (cnt f l) eqn:E; auto. destruct (cnt_ex f l) as (i & x & P & Q); [lia|]. rewrite (H _ _ P) in Q. discriminate.
Qed.

(** A block is free exactly when nothing keeps it. *)
Lemma inv_freed h o b : hinv h o -> b < length h ->
  (nth_error h b = Some Freed <-> forall i x, nth_error o i = Some x -> ~ keeps x b).
Proof.
  intros I L. pose proof (I b) as Ib. split.
  - intros E i x N K. rewrite E in Ib. destruct Ib as [A B]. apply keeps_iff in K.
    pose proof (proj1 (cnt_zero _ _) A _ _ N). pose proof (proj1 (cnt_zero _ _) B _ _ N). destruct K; congruence.
  - intros N.
    assert (A : cnt (sown b) o = 0).
    { apply cnt_zero. intros i x E. destruct (sown b x) eqn:F; auto. exfalso. apply (N _ _ E). apply keeps_iff. auto. }
    assert (B : cnt (vown b) o = 0).
    { apply cnt_zero. intros i x E. destruct (vown b x) eqn:F; auto. exfalso. apply (N _ _ E). apply keeps_iff. auto. }
    destruct (nth_error h b) as [[l c|l|]|] eqn:E; auto; simpl in Ib; try lia. apply nth_error_None in E. lia.
Qed.

End S.

