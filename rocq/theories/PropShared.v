(** * PropShared: C41. *)

From Coq Require Import List Bool PeanoNat Lia.
From Verif Require Import Base Shared SharedSpec SharedProofs.
Import ListNotations.
Local Open Scope nat_scope.

(** ** C41: shared constant vectors have value semantics *)

(** A program that only does what the value semantics allows runs without undefined behaviour
    (no double release, no release of a live vector, no access to freed memory), and every
    const_vector, every index_view with a vector of its own and every std::vector has exactly
    the elements that the value semantics without any sharing gives it. *)
Theorem C41_value_semantics : forall (T : Type) (cs : list (scmd T)) a,
  vrun cs [] = Some a ->
  exists s, srun cs init = Ok s /\
    forall i v l, nth_error a i = Some v -> value v = Some l ->
      contents s i = Ok l.
Proof.
  intros T cs a E. pose proof (srun_sim T cs [] init (sim_init T)) as H. rewrite E in H.
  destruct H as (s & R & S). exists s. split; auto. intros i v l N V. eapply sim_contents; eauto.
Qed.
Print Assumptions C41_value_semantics.

(** The other programs are undefined. *)
Theorem C41_undefined : forall (T : Type) (cs : list (scmd T)), vrun cs [] = None -> srun cs init = UB.
Proof. intros T cs E. pose proof (srun_sim T cs [] init (sim_init T)) as H. rewrite E in H. exact H. Qed.

(** An object keeps its elements through every continuation that does not assign to it, move
    from it or destroy it. *)
Lemma vexec_keep (T : Type) (c : scmd T) a a' i :
  vexec c a = Some a' -> ~ In i (changes c) -> i < length a -> nth_error a' i = nth_error a i.
Proof.
  intros E N L.
  assert (SN : forall x, nth_error (a ++ [x]) i = nth_error a i) by (intros; apply nth_error_app1; auto).
  assert (US : forall j x, j <> i -> nth_error (upd_nat a j x) i = nth_error a i) by (intros; apply upd_other; auto).
  assert (UA : forall j x y, j <> i -> nth_error (upd_nat a j x ++ [y]) i = nth_error a i).
  { intros. rewrite nth_error_app1 by (rewrite upd_len; auto). auto. }
  destruct c; simpl in *;
    repeat match type of E with
    | match ?x with _ => _ end = _ => destruct x; try discriminate
    end; injection E as <-; auto 6;
  rewrite !upd_other; auto.
Qed.
Lemma vexec_len (T : Type) (c : scmd T) a a' : vexec c a = Some a' -> length a <= length a'.
Proof.
  intros E. destruct c; simpl in *;
    repeat match type of E with
    | match ?x with _ => _ end = _ => destruct x; try discriminate
    end; injection E as <-; rewrite ?app_length, ?upd_len; lia.
Qed.

Theorem C41_stable : forall (T : Type) (cs cs' : list (scmd T)) s s' i l,
  srun cs init = Ok s -> srun cs' s = Ok s' ->
  (forall c, In c cs' -> ~ In i (changes c)) ->
  (exists b, nth_error (objs s) i = Some (OCv (Some b)) \/ nth_error (objs s) i = Some (OVec b)
             \/ exists d o n, nth_error (objs s) i = Some (OView (Some (Some b)) d o n)) ->
  contents s i = Ok l -> contents s' i = Ok l.
Proof.
  intros T cs cs' s s' i l R R' N K C.
  pose proof (srun_sim T cs [] init (sim_init T)) as H. destruct (vrun cs []) as [a|]; [|congruence].
  destruct H as (s0 & R0 & S). rewrite R0 in R. injection R as ->.
  assert (V : exists v, nth_error a i = Some v /\ value v = Some l).
  { destruct K as (b & K).
    assert (L : i < length a) by (rewrite (sim_len _ _ _ S); destruct K as [K|[K|(d & o & n & K)]]; apply nth_lt in K; auto).
    destruct (nth_error a i) as [v|] eqn:E; [|apply nth_error_None in E; lia]. exists v. split; auto.
    destruct (sim_get _ _ _ _ _ S E) as (o & O & Rl).
    assert (exists l', value v = Some l') as (l' & V).
    { destruct K as [K|[K|(d & o' & n & K)]]; rewrite K in O; injection O as <-;
      destruct v as [[?|]|?|[?|]| |]; simpl in Rl; try contradiction; simpl; eauto. }
    pose proof (sim_contents _ _ _ _ _ _ S E V). congruence. }
  destruct V as (v & E & V). clear K C R0.
  revert a s S R' E. induction cs' as [|c cs' IH]; intros a s S R' E.
  - simpl in R'. injection R' as <-. eapply sim_contents; eauto.
  - simpl in R'. pose proof (sexec_sim T a s c S) as H. destruct (vexec c a) as [a'|] eqn:X.
    + destruct H as (s1 & E1 & S1). rewrite E1 in R'. simpl in R'.
      apply (IH (fun c' Hc => N c' (or_intror Hc)) a' s1 S1 R').
      rewrite (vexec_keep T c a a' i X); auto; [apply N; left; auto|apply nth_lt in E; auto].
    + rewrite H in R'. discriminate.
Qed.
Print Assumptions C41_stable.

(** The elements are released exactly when nothing that keeps them is left, at any moment of any
    program: not before, and not later. *)
Theorem C41_released : forall (T : Type) (cs : list (scmd T)) s b,
  srun cs init = Ok s -> b < length (mem s) ->
  (nth_error (mem s) b = Some Freed <->
   forall i o, nth_error (objs s) i = Some o -> ~ keeps o b).
Proof.
  intros T cs s b R L. pose proof (srun_sim T cs [] init (sim_init T)) as H. destruct (vrun cs []) as [a|]; [|congruence].
  destruct H as (s0 & R0 & S). rewrite R0 in R. injection R as ->. apply inv_freed; auto. apply (sim_inv _ _ _ S).
Qed.
Print Assumptions C41_released.

(** Nothing leaks: with all objects destroyed, all memory is free. *)
Theorem C41_no_leak : forall (T : Type) (cs : list (scmd T)) s,
  srun cs init = Ok s -> (forall i o, nth_error (objs s) i = Some o -> o = ODead) ->
  forall x, In x (mem s) -> x = Freed.
Proof.
  intros T cs s R D x Hx. apply In_nth_error in Hx. destruct Hx as (b & Hb).
  assert (F : nth_error (mem s) b = Some Freed).
  { apply (C41_released T cs s b R); [apply nth_lt in Hb; auto|]. intros i o E K. apply D in E. subst.
    destruct K as [K|[(? & ? & ? & K)|K]]; discriminate. }
  congruence.
Qed.
Print Assumptions C41_no_leak.

(** Released memory is never used again: no later operation brings a block back. *)
Lemma upd_freed (T : Type) (h : heap T) b x b' : nth_error h b <> Some Freed -> nth_error h b' = Some Freed ->
  nth_error (upd_nat h b x) b' = Some Freed.
Proof. intros N F. destruct (Nat.eq_dec b b') as [X|X]; [subst; congruence|]. rewrite upd_other; auto. Qed.
Lemma incr_freed (T : Type) (h h' : heap T) p b : incr h p = Ok h' -> nth_error h b = Some Freed -> nth_error h' b = Some Freed.
Proof.
  destruct p as [c|]; simpl; [|congruence]. destruct (nth_error h c) as [[l n|l|]|] eqn:E; try discriminate.
  intros [= <-] F. apply upd_freed; congruence.
Qed.
Lemma release_freed (T : Type) (h h' : heap T) p b : release h p = Ok h' -> nth_error h b = Some Freed -> nth_error h' b = Some Freed.
Proof.
  destruct p as [c|]; simpl; [|congruence]. destruct (nth_error h c) as [[l [|[|n]]|l|]|] eqn:E; try discriminate;
  intros [= <-] F; apply upd_freed; congruence.
Qed.

Theorem C41_released_once : forall (T : Type) (c : scmd T) s s' b,
  sexec c s = Ok s' -> nth_error (mem s) b = Some Freed -> nth_error (mem s') b = Some Freed.
Proof.
  intros T c s s' b E F. destruct c; simpl in E;
  repeat (match type of E with
  | (match nth_error (objs s) ?i with _ => _ end) = _ => destruct (nth_error (objs s) i) as [[?|?|? ? ? ?|]|] eqn:?; try discriminate
  | (match nth_error (mem s) ?i with _ => _ end) = _ => destruct (nth_error (mem s) i) as [[? ?|?|]|] eqn:?; try discriminate
  | (match ?p with Some _ => _ | None => _ end) = _ => destruct p; try discriminate
  | (if ?x then _ else _) = _ => destruct x; try discriminate
  | bindO ?x _ = _ => destruct x eqn:?; simpl in E; try discriminate
  end);
  try (injection E as <-); simpl;
  repeat match goal with
  | H : incr _ _ = Ok ?h |- nth_error ?h b = _ => apply (incr_freed _ _ _ _ _ H)
  | H : release _ _ = Ok ?h |- nth_error ?h b = _ => apply (release_freed _ _ _ _ _ H)
  end; auto;
  try (apply nth_old); try (apply upd_freed; congruence); auto.
Qed.

(** *** Failures of the literal claim: objects without a value of their own *)

(** A moved-from const_vector is null: any access is undefined, not an empty vector. *)
Theorem C41_moved_from_refuted : exists (cs : list (scmd nat)) s,
  srun cs init = Ok s /\ contents s 1 = Ok [1; 2] /\ contents s 0 = UB /\ cv_size s 0 = UB /\
  cv_eq Nat.eqb s 0 0 = UB.
Proof. exists [NewCv [1; 2]; MoveCv 0]. eexists. split; [reflexivity|]. repeat split. Qed.

(** An index_view of a std::vector refers to the vector: it sees later changes, and dangles
    after a reallocation or the end of the vector. *)
Theorem C41_borrowed_view_refuted : exists (cs : list (scmd nat)) s1 s2 s3,
  srun cs init = Ok s1 /\ contents s1 1 = Ok [1; 2; 3] /\
  sexec (VecSet 0 1 9) s1 = Ok s2 /\ contents s2 1 = Ok [1; 9; 3] /\
  sexec (VecRealloc 0 [1; 9; 3; 4]) s2 = Ok s3 /\ contents s3 1 = UB.
Proof.
  exists [NewVec [1; 2; 3]; ViewBorrow 0 0 3]. eexists. eexists. eexists.
  split; [reflexivity|]. split; [reflexivity|]. split; [reflexivity|]. split; [reflexivity|]. split; reflexivity.
Qed.

(** A moved-from index_view keeps its pointers: it still shows the elements, until the object
    it was moved to is gone. *)
Theorem C41_moved_view_refuted : exists (cs : list (scmd nat)) s1 s2,
  srun cs init = Ok s1 /\ contents s1 0 = Ok [1; 2; 3] /\
  sexec (Destroy 1) s1 = Ok s2 /\ contents s2 0 = UB.
Proof.
  exists [ViewRange [1; 2; 3]; MoveView 0]. eexists. eexists.
  split; [reflexivity|]. split; [reflexivity|]. split; reflexivity.
Qed.

(** *** Reading *)

(** Access, size and comparisons of objects with values. *)
Theorem C41_reads : forall (T : Type) (cs : list (scmd T)) a s i v l,
  vrun cs [] = Some a -> srun cs init = Ok s -> nth_error a i = Some v -> value v = Some l ->
  cv_size s i = Ok (length l) /\
  (cv_empty s i = Ok true <-> l = []) /\
  (forall p x, cv_at s i p = Ok (Some x) <-> nth_error l p = Some x) /\
  (forall p, cv_at s i p = Ok None <-> length l <= p) /\
  (forall p x, cv_index s i p = Ok x <-> nth_error l p = Some x) /\
  (forall p, cv_index s i p = UB <-> length l <= p) /\
  (forall x l', l = x :: l' -> cv_front s i = Ok x) /\
  (forall x l', l = l' ++ [x] -> cv_back s i = Ok x).
Proof.
  intros T cs a s i v l A R N V. destruct (C41_value_semantics T cs a A) as (s0 & R0 & C).
  rewrite R0 in R. injection R as ->. pose proof (C i v l N V) as E.
  unfold cv_size, cv_empty, cv_at, cv_index, cv_front, cv_back. rewrite E. simpl.
  split; auto. split; [destruct l; split; congruence|]. split; [split; congruence|].
  split; [intros p; rewrite <- nth_error_None; split; congruence|].
  split; [intros p x; destruct (nth_error l p); split; congruence|].
  split; [intros p; rewrite <- nth_error_None; destruct (nth_error l p); split; congruence|].
  split; [intros x l' ->; auto|intros x l' ->; rewrite rev_app_distr; auto].
Qed.
Print Assumptions C41_reads.

Lemma vec_eq_spec (T : Type) (teq : T -> T -> bool) (H : forall x y, teq x y = true <-> x = y) a :
  forall b, vec_eq teq a b = true <-> a = b.
Proof.
  induction a as [|x a IH]; intros [|y b]; simpl; try (split; congruence).
  rewrite andb_true_iff, H, IH. split; [intros [-> ->]; auto|intros [= -> ->]; auto].
Qed.

(** a < b: at the first place where they differ a has the smaller element, or a is a proper
    prefix of b. *)
Definition lex_lt {T} (tlt : T -> T -> Prop) (a b : list T) : Prop :=
  (exists y b', b = a ++ y :: b') \/
  (exists p x y a' b', a = p ++ x :: a' /\ b = p ++ y :: b' /\ tlt x y).

Lemma vec_lt_spec (T : Type) (tlt : T -> T -> bool)
  (Irr : forall x, tlt x x = false) (Tot : forall x y, tlt x y = false -> tlt y x = false -> x = y)
  (Asym : forall x y, tlt x y = true -> tlt y x = false) a :
  forall b, vec_lt tlt a b = true <-> lex_lt (fun x y => tlt x y = true) a b.
Proof.
  induction a as [|x a IH]; intros [|y b]; simpl.
  - split; [discriminate|]. intros [(y & b' & E)|(p & x & y & a' & b' & E & _)]; [discriminate|destruct p; discriminate].
  - split; auto. intros _. left. exists y, b. auto.
  - split; [discriminate|]. intros [(z & b' & E)|(p & u & z & a' & b' & _ & E & _)]; [discriminate|destruct p; discriminate].
  - destruct (tlt x y) eqn:L.
    + split; auto. intros _. right. exists [], x, y, a, b. auto.
    + destruct (tlt y x) eqn:G.
      * split; [discriminate|]. intros [(z & b' & E)|(p & u & z & a' & b' & E & E' & F)].
        -- injection E as -> ->. rewrite Irr in G. discriminate.
        -- destruct p as [|w p]; simpl in *; injection E as -> ->; injection E' as -> ->; [congruence|].
           rewrite Irr in G. discriminate.
      * pose proof (Tot _ _ L G). subst y. rewrite IH. split.
        -- intros [(z & b' & E)|(p & u & z & a' & b' & E & E' & F)]; subst.
           ++ left. exists z, b'. auto.
           ++ right. exists (x :: p), u, z, a', b'. auto.
        -- intros [(z & b' & E)|(p & u & z & a' & b' & E & E' & F)].
           ++ injection E as E. left. eauto.
           ++ destruct p as [|w p]; simpl in *; injection E as -> ->; injection E' as E'.
              ** subst. congruence.
              ** right. exists p, u, z, a', b'. auto.
Qed.

Theorem C41_comparisons : forall (T : Type) (teq tlt : T -> T -> bool) (cs : list (scmd T)) a s i j v w l m,
  (forall x y, teq x y = true <-> x = y) ->
  (forall x, tlt x x = false) -> (forall x y, tlt x y = false -> tlt y x = false -> x = y) ->
  (forall x y, tlt x y = true -> tlt y x = false) ->
  vrun cs [] = Some a -> srun cs init = Ok s ->
  nth_error a i = Some v -> value v = Some l -> nth_error a j = Some w -> value w = Some m ->
  let lt a b := lex_lt (fun x y => tlt x y = true) a b in
  exists e n lt_ le gt ge,
    cv_eq teq s i j = Ok e /\ (e = true <-> l = m) /\
    cv_ne teq s i j = Ok n /\ (n = true <-> l <> m) /\
    cv_lt tlt s i j = Ok lt_ /\ (lt_ = true <-> lt l m) /\
    cv_le tlt s i j = Ok le /\ (le = true <-> ~ lt m l) /\
    cv_gt tlt s i j = Ok gt /\ (gt = true <-> lt m l) /\
    cv_ge tlt s i j = Ok ge /\ (ge = true <-> ~ lt l m).
Proof.
  intros T teq tlt cs a s i j v w l m Eq Irr Tot Asym A R Ni Vi Nj Vj lt.
  destruct (C41_value_semantics T cs a A) as (s0 & R0 & C). rewrite R0 in R. injection R as ->.
  pose proof (C i v l Ni Vi) as Ei. pose proof (C j w m Nj Vj) as Ej.
  unfold cv_eq, cv_ne, cv_lt, cv_le, cv_gt, cv_ge, cv_cmp. rewrite Ei, Ej. simpl.
  do 6 eexists.
  pose proof (vec_eq_spec T teq Eq l m) as Q. pose proof (vec_lt_spec T tlt Irr Tot Asym l m) as P1.
  pose proof (vec_lt_spec T tlt Irr Tot Asym m l) as P2. fold (lt l m) in P1. fold (lt m l) in P2.
  split; [reflexivity|]. split; [exact Q|]. split; [reflexivity|]. split; [rewrite negb_true_iff, <- Q; destruct (vec_eq teq l m); split; congruence|].
  split; [reflexivity|]. split; [exact P1|]. split; [reflexivity|].
  split; [rewrite negb_true_iff, <- P2; destruct (vec_lt tlt m l); split; congruence|].
  split; [reflexivity|]. split; [exact P2|]. split; [reflexivity|].
  rewrite negb_true_iff, <- P1; destruct (vec_lt tlt l m); split; congruence.
Qed.
Print Assumptions C41_comparisons.

(** *** Cases *)

(** A vector copied, moved, assigned, viewed; the copies destroyed; the last owner is a view. *)
Definition demo : list (scmd nat) :=
  [NewCv [4; 5]; CopyCv 0; NewVec [7; 8; 9]; ViewMoveVec 2; ViewCopyCv 1; CopyView 3; MoveAssignCv 0 1;
   NewCv [1]; AssignCv 0 6; Destroy 1; Destroy 3; AssignView 5 4; Destroy 4].
Example C41_value_semantics_ex :
  vrun demo [] = Some [VCv (Some [1]); VDead; VVec []; VDead; VDead; VView (Some [4; 5]); VCv (Some [1])] /\
  exists s, srun demo init = Ok s /\ contents s 5 = Ok [4; 5] /\ contents s 0 = Ok [1] /\
    nth_error (mem s) 1 = Some Freed.
Proof. split; [reflexivity|]. eexists. split; [reflexivity|]. repeat split. Qed.
Example C41_stable_ex : exists s s',
  srun [NewCv [4; 5]; CopyCv 0] init = Ok s /\ srun [Destroy 0; NewCv [1]; AssignCv 2 1; @MoveCv nat 2] s = Ok s' /\
  contents s 1 = Ok [4; 5] /\ contents s' 1 = Ok [4; 5].
Proof. eexists. eexists. split; [reflexivity|]. split; [reflexivity|]. split; reflexivity. Qed.
Example C41_released_ex : exists s s',
  srun [NewCv [4; 5]; CopyCv 0; Destroy 0] init = Ok s /\ nth_error (mem s) 0 = Some (Shared [4; 5] 1) /\
  sexec (@Destroy nat 1) s = Ok s' /\ nth_error (mem s') 0 = Some Freed /\ sexec (@Destroy nat 1) s' = UB.
Proof. eexists. eexists. split; [reflexivity|]. repeat split. Qed.
