(** * ExprLifeProofs: stored expressions and the lifetime of operands. *)

From Coq Require Import ZArith List Bool Lia.
From Verif Require Import Base Spec Desc Slice SliceSpec Lemmas Expr ExprSpec ExprProofs ExprThms ExprLife.
Import ListNotations.
Open Scope Z_scope.

Section P.
Context {V : Type}.
Notation lheap := (@lheap V).

(** An iterator of [lexpr] and one of [expr] that do the same while everything is alive. *)
Fixpoint same (hl : lheap) (hx : @heap V) (y : yit) (x : xit) : Prop :=
  match y, x with
  | YLeaf dep sid i, XLeaf sid' i' => sid = sid' /\ i = i' /\ alive hl dep = Ok tt
  | YUn src i, XUn src' i' =>
      (exists f, nth_error hl src = Some (Some (XFn f)) /\ nth_error hx src' = Some (Some f)) /\ same hl hx i i'
  | YBin src i j, XBin src' i' j' =>
      (exists f, nth_error hl src = Some (Some (XFn (F2 f))) /\ nth_error hx src' = Some (Some (F2 f))) /\ same hl hx i i' /\ same hl hx j j'
  | _, _ => False
  end.

Lemma nth_app_l {A} (l l' : list A) i v : nth_error l i = Some v -> nth_error (l ++ l') i = Some v.
Proof. intros H. rewrite nth_error_app1; auto. apply nth_error_Some. congruence. Qed.
Lemma alive_app (h h' : lheap) dep : alive h dep = Ok tt -> alive (h ++ h') dep = Ok tt.
Proof.
  destruct dep as [o|]; cbn; auto. destruct (nth_error h o) as [[v|]|] eqn:E; try discriminate. intros _.
  rewrite (nth_app_l _ _ _ _ E). reflexivity.
Qed.
Lemma same_app hl hl' hx hx' y : forall x, same hl hx y x -> same (hl ++ hl') (hx ++ hx') y x.
Proof.
  induction y as [dep sid i|src i IH|src i IHi j IHj]; intros [sid' i'|src' i'|src' i' j'] H; cbn in H |- *; try tauto.
  - destruct H as (A & B & C). auto using alive_app.
  - destruct H as ((f & A & B) & C). split; auto. exists f. auto using nth_app_l.
  - destruct H as ((f & A & B) & C & D). split; auto. exists f. auto using nth_app_l.
Qed.
Lemma same_deref hl hx m y : forall x, same hl hx y x -> yderef hl m y = xderef hx m x.
Proof.
  induction y as [dep sid i|src i IH|src i IHi j IHj]; intros [sid' i'|src' i'|src' i' j'] H; cbn in H |- *; try tauto.
  - destruct H as (<- & <- & ->). reflexivity.
  - destruct H as ((f & -> & ->) & C). destruct f as [f|f|]; auto; [rewrite (IH _ C); reflexivity|].
    specialize (IH _ C). destruct i, i'; cbn in C; try tauto; exact IH.
  - destruct H as ((f & -> & ->) & C & D). rewrite (IHi _ C), (IHj _ D). reflexivity.
Qed.
Lemma same_next hl hx y : forall x, same hl hx y x ->
  match ynext hl y, xnext x with
  | Ok y', Ok x' => same hl hx y' x'
  | Ok _, _ => False
  | _, Ok _ => False
  | Throw a, Throw b => a = b
  | Abort, Abort | UB, UB | Timeout, Timeout => True
  | _, _ => False
  end.
Proof.
  induction y as [dep sid i|src i IH|src i IHi j IHj]; intros [sid' i'|src' i'|src' i' j'] H; cbn in H |- *; try tauto.
  - destruct H as (<- & <- & A). rewrite A. cbn. destruct (lit_next i); cbn; auto.
  - destruct H as (A & C). specialize (IH _ C). destruct (ynext hl i), (xnext i'); cbn; auto.
  - destruct H as (A & C & D). specialize (IHi _ C). specialize (IHj _ D).
    destruct (ynext hl i), (xnext i'); cbn; try tauto; destruct (ynext hl j), (xnext j'); cbn; try tauto.
Qed.
Lemma same_copy hl hx m n : forall y x, same hl hx y x -> lcopy_n n hl m y = copy_n n hx m x.
Proof.
  induction n as [|n IH]; intros y x H; cbn; auto. rewrite (same_deref _ _ m _ _ H).
  destruct (xderef hx m x); cbn; auto. pose proof (same_next _ _ _ _ H) as N.
  destruct (ynext hl y), (xnext x); cbn; try tauto; try congruence. rewrite (IH _ _ N). reflexivity.
Qed.

Lemma nth_last {A} (l : list A) v : nth_error (l ++ [v]) (length l) = Some v.
Proof. rewrite nth_error_app2, Nat.sub_diag by lia. reflexivity. Qed.

Lemma leaf_alive l s (h : lheap) : let (dep, h') := leaf_obj l s h in alive h' dep = Ok tt /\ exists k, h' = h ++ k.
Proof.
  unfold leaf_obj. destruct l as [|owns|].
  - split; [reflexivity|]. exists []. rewrite app_nil_r. reflexivity.
  - split; [|eauto]. destruct (needs_object _ _); cbn; auto. rewrite nth_last. reflexivity.
  - split; [|eauto]. destruct (needs_object _ _); cbn; auto. rewrite nth_last. reflexivity.
Qed.

(** Building. *)
Lemma build_same chk (e : @lexpr V) : forall hl hx,
  match lbuild chk e hl, build chk (erase e) hx with
  | Ok (s, hl'), Ok (t, hx') => ydim s = sdim t /\ same hl' hx' (ybeg s) (sbeg t) /\ (exists k, hl' = hl ++ k) /\ (exists k, hx' = hx ++ k)
  | Ok _, _ => False
  | _, Ok _ => False
  | Throw a, Throw b => a = b
  | Abort, Abort | UB, UB | Timeout, Timeout => True
  | _, _ => False
  end.
Proof.
  assert (U : forall (f : @fn V) s (hl : lheap) t (hx : @heap V) es (k : lheap) (q : @heap V) hl0 hx0,
    same hl hx (ybeg s) (sbeg t) -> hl = hl0 ++ k -> hx = hx0 ++ q ->
    ydim (fst (lmk_un hl f s es)) = sdim (fst (mk_un hx f t es)) /\
    same (snd (lmk_un hl f s es)) (snd (mk_un hx f t es)) (ybeg (fst (lmk_un hl f s es))) (sbeg (fst (mk_un hx f t es))) /\
    (exists k, snd (lmk_un hl f s es) = hl0 ++ k) /\ (exists k, snd (mk_un hx f t es) = hx0 ++ k)).
  { intros f s hl t hx es k q hl0 hx0 S E1 E2. cbn. split; auto. split; [|split].
    - split; [exists f; split; apply nth_last|apply same_app; exact S].
    - exists (k ++ [Some (XFn f)]). subst. rewrite app_assoc. reflexivity.
    - exists (q ++ [Some f]). subst. rewrite app_assoc. reflexivity. }
  induction e as [l sid s|f e IH|f e1 IH1 e2 IH2|f c e IH|f e IH c|D e IH]; intros hl hx; cbn [lbuild erase build].
  - destruct (leaf_range s) as [r| | | |]; cbn; auto. destruct (dims s) as [es|]; cbn; auto.
    pose proof (leaf_alive l s hl) as A. destruct (leaf_obj l s hl) as [dep h']. destruct A as [A K]. cbn. repeat split; auto.
    exists []. rewrite app_nil_r. reflexivity.
  - specialize (IH hl hx). destruct (lbuild chk e hl) as [[s hl']| | | |], (build chk (erase e) hx) as [[t hx']| | | |]; cbn [bindO]; try tauto.
    destruct IH as (D & S & (k & K) & (q & Q)). cbn [fst snd]. rewrite D.
    pose proof (U (F1 f) s hl' t hx' (sdim t) k q hl hx S K Q) as X. destruct (lmk_un hl' (F1 f) s (sdim t)), (mk_un hx' (F1 f) t (sdim t)). exact X.
  - specialize (IH1 hl hx). destruct (lbuild chk e1 hl) as [[s hl']| | | |], (build chk (erase e1) hx) as [[t hx']| | | |]; cbn [bindO]; try tauto.
    destruct IH1 as (D & S & (k & K) & (q & Q)). cbn [fst snd].
    specialize (IH2 hl' hx'). destruct (lbuild chk e2 hl') as [[s2 hl2]| | | |], (build chk (erase e2) hx') as [[t2 hx2]| | | |]; cbn [bindO]; try tauto.
    destruct IH2 as (D2 & S2 & (k2 & K2) & (q2 & Q2)). cbn [fst snd]. rewrite D, D2.
    destruct (dassert chk (Zlist_eqb (sdim t) (sdim t2))); cbn [bindO]; auto. cbn. split; auto. split; [|split].
    + split; [exists f; split; apply nth_last|]. split; apply same_app; auto. subst hl2 hx2. apply same_app. exact S.
    + exists (k ++ k2 ++ [Some (XFn (F2 f))]). subst. rewrite !app_assoc. reflexivity.
    + exists (q ++ q2 ++ [Some (F2 f)]). subst. rewrite !app_assoc. reflexivity.
  - specialize (IH hl hx). destruct (lbuild chk e hl) as [[s hl']| | | |], (build chk (erase e) hx) as [[t hx']| | | |]; cbn [bindO]; try tauto.
    destruct IH as (D & S & (k & K) & (q & Q)). cbn [fst snd]. rewrite D.
    pose proof (U (F1 (left_operation c f)) s hl' t hx' (sdim t) k q hl hx S K Q) as X.
    destruct (lmk_un hl' (F1 (left_operation c f)) s (sdim t)), (mk_un hx' (F1 (left_operation c f)) t (sdim t)). exact X.
  - specialize (IH hl hx). destruct (lbuild chk e hl) as [[s hl']| | | |], (build chk (erase e) hx) as [[t hx']| | | |]; cbn [bindO]; try tauto.
    destruct IH as (D & S & (k & K) & (q & Q)). cbn [fst snd]. rewrite D.
    pose proof (U (F1 (right_operation c f)) s hl' t hx' (sdim t) k q hl hx S K Q) as X.
    destruct (lmk_un hl' (F1 (right_operation c f)) s (sdim t)), (mk_un hx' (F1 (right_operation c f)) t (sdim t)). exact X.
  - specialize (IH hl hx). destruct (lbuild chk e hl) as [[s hl']| | | |], (build chk (erase e) hx) as [[t hx']| | | |]; cbn [bindO]; try tauto.
    destruct IH as (Di & S & (k & K) & (q & Q)). cbn [fst snd]. rewrite Di.
    destruct (drop_one_level_extents chk D (sdim t)) as [es| | | |]; cbn [bindO]; try tauto.
    pose proof (U FFwd s hl' t hx' es k q hl hx S K Q) as X. destruct (lmk_un hl' FFwd s es), (mk_un hx' FFwd t es). exact X.
Qed.

(** Lifetimes do not matter within one full expression. *)
Lemma leval_is_eval chk m (e : @lexpr V) : leval_expr chk m e = eval_expr chk m (erase e).
Proof.
  unfold leval_expr, eval_expr. pose proof (build_same chk e [] []) as B.
  destruct (lbuild chk e []) as [[s hl]| | | |], (build chk (erase e) []) as [[t hx]| | | |]; cbn [bindO]; try tauto; try congruence.
  destruct B as (D & S & _). cbn [fst snd]. unfold lmaterialise, materialise. rewrite D, (same_copy _ _ _ _ _ _ S). reflexivity.
Qed.

(** Objects an iterator refers to. *)
Fixpoint refs (y : yit) : list nat :=
  match y with
  | YLeaf dep _ _ => match dep with Some o => [o] | None => [] end
  | YUn src i => src :: refs i
  | YBin src i j => src :: refs i ++ refs j
  end.
Definition dead (h : lheap) (o : nat) : Prop := match nth_error h o with Some (Some _) => False | _ => True end.

Lemma refs_next (h : lheap) y : forall y', ynext h y = Ok y' -> refs y' = refs y.
Proof.
  induction y as [dep sid i|src i IH|src i IHi j IHj]; intros y' H; cbn in H.
  - apply bindO_Ok_inv in H as [u [_ H]]. apply bindO_Ok_inv in H as [i' [_ H]]. injection H as <-. reflexivity.
  - apply bindO_Ok_inv in H as [i' [E H]]. injection H as <-. cbn. rewrite (IH _ E). reflexivity.
  - apply bindO_Ok_inv in H as [i' [E H]]. apply bindO_Ok_inv in H as [j' [E' H]]. injection H as <-. cbn. rewrite (IHi _ E), (IHj _ E'). reflexivity.
Qed.

Lemma deref_alive (h h' : lheap) m y : (forall o, In o (refs y) -> nth_error h' o = nth_error h o) -> yderef h' m y = yderef h m y.
Proof.
  induction y as [dep sid i|src i IH|src i IHi j IHj]; intros H; cbn in H |- *.
  - destruct dep as [o|]; cbn; auto. rewrite (H o) by (left; auto). reflexivity.
  - rewrite (H src) by (left; auto). rewrite IH by (intros; apply H; right; auto). reflexivity.
  - rewrite (H src) by (left; auto). rewrite IHi by (intros; apply H; right; apply in_or_app; auto).
    rewrite IHj by (intros; apply H; right; apply in_or_app; auto). reflexivity.
Qed.
Lemma next_alive (h h' : lheap) y : (forall o, In o (refs y) -> nth_error h' o = nth_error h o) -> ynext h' y = ynext h y.
Proof.
  induction y as [dep sid i|src i IH|src i IHi j IHj]; intros H; cbn in H |- *.
  - destruct dep as [o|]; cbn; auto. rewrite (H o) by (left; auto). reflexivity.
  - rewrite IH by (intros; apply H; right; auto). reflexivity.
  - rewrite IHi by (intros; apply H; right; apply in_or_app; auto).
    rewrite IHj by (intros; apply H; right; apply in_or_app; auto). reflexivity.
Qed.
Lemma copy_alive (h h' : lheap) m n : forall y, (forall o, In o (refs y) -> nth_error h' o = nth_error h o) -> lcopy_n n h' m y = lcopy_n n h m y.
Proof.
  induction n as [|n IH]; intros y H; cbn; auto. rewrite (deref_alive h h' m y H), (next_alive h h' y H).
  destruct (yderef h m y); cbn; auto. destruct (ynext h y) eqn:E; cbn; auto. rewrite IH; auto. rewrite (refs_next _ _ _ E). exact H.
Qed.

(** With a dead object among those referred to, dereferencing is undefined, where it was defined before. *)
Lemma deref_dead (h h' : lheap) m y r o : yderef h m y = Ok r -> (forall o, nth_error h' o = nth_error h o \/ dead h' o) ->
  In o (refs y) -> dead h' o -> yderef h' m y = UB.
Proof.
  intros E H I D.
  assert (G : forall y r, yderef h m y = Ok r -> (yderef h' m y = yderef h m y \/ yderef h' m y = UB) /\ (In o (refs y) -> yderef h' m y = UB)).
  { clear y r E I. induction y as [dep sid i|src i IH|src i IHi j IHj]; intros r E; cbn in E |- *.
    - destruct dep as [o'|]; cbn in E |- *; [|split; [auto|tauto]].
      destruct (H o') as [Q|Q].
      + rewrite Q. split; [auto|]. intros [->|[]]. unfold dead in D. rewrite Q in D. destruct (nth_error h o) as [[v|]|]; cbn; try tauto; reflexivity.
      + unfold dead in Q. destruct (nth_error h' o') as [[v|]|]; [tauto| |]; cbn; auto.
    - destruct (nth_error h src) as [[[|[f|f|]]|]|] eqn:N; try discriminate.
      2:{ destruct i as [dep sid i| |]; try discriminate. destruct (IH _ E) as [A B]. destruct (H src) as [Q|Q].
          - rewrite Q, N. split; [exact A|]. intros [->|I]; [unfold dead in D; rewrite Q, N in D; tauto|]. exact (B I).
          - unfold dead in Q. destruct (nth_error h' src) as [[v|]|]; [tauto| |]; auto. }
      apply bindO_Ok_inv in E as [q [E1 E]].
      destruct (IH _ E1) as [A B]. destruct (H src) as [Q|Q].
      + rewrite Q, N. split.
        * destruct A as [->| ->]; auto.
        * intros [->|I]; [unfold dead in D; rewrite Q, N in D; tauto|]. rewrite (B I). reflexivity.
      + unfold dead in Q. destruct (nth_error h' src) as [[v|]|]; [tauto| |]; auto.
    - destruct (nth_error h src) as [[[|[f|f|]]|]|] eqn:N; try discriminate. apply bindO_Ok_inv in E as [q [E1 E]]. apply bindO_Ok_inv in E as [q' [E2 E]].
      destruct (IHi _ E1) as [A B]. destruct (IHj _ E2) as [A' B']. destruct (H src) as [Q|Q].
      + rewrite Q, N. split.
        * destruct A as [->| ->]; auto. destruct A' as [->| ->]; auto. rewrite E1. cbn. auto.
        * intros [->|I]; [unfold dead in D; rewrite Q, N in D; tauto|]. apply in_app_or in I as [I|I].
          -- rewrite (B I). reflexivity.
          -- destruct A as [->| ->]; auto. rewrite (B' I), E1. reflexivity.
      + unfold dead in Q. destruct (nth_error h' src) as [[v|]|]; [tauto| |]; auto. }
  apply (G y r E). exact I.
Qed.

(** The objects the iterators of a new expression refer to, and the number of objects afterwards. *)
Fixpoint brefs (e : @lexpr V) (n : nat) : list nat * nat :=
  match e with
  | LLeaf l _ s => match l with Named => ([], n) | _ => (if needs_object l s then [n] else [], S n) end
  | LUn _ e | LLeft _ _ e | LRight _ e _ | LDrop _ e => let (r, k) := brefs e n in (k :: r, S k)
  | LBin _ e1 e2 => let (r1, k1) := brefs e1 n in let (r2, k2) := brefs e2 k1 in (k2 :: r1 ++ r2, S k2)
  end.

Lemma build_refs chk e : forall h s h', lbuild chk e h = Ok (s, h') -> (refs (ybeg s), length h') = brefs e (length h).
Proof.
  assert (U : forall (f : @fn V) e (h : lheap) s h' es, (refs (ybeg s), length h') = brefs e (length h) ->
    (refs (ybeg (fst (lmk_un h' f s es))), length (snd (lmk_un h' f s es))) = (let (r, k) := brefs e (length h) in (k :: r, S k))).
  { intros f e0 h s h' es E. rewrite <- E. cbn. rewrite app_length. cbn. f_equal. lia. }
  induction e as [l sid s0|f e IH|f e1 IH1 e2 IH2|f c e IH|f e IH c|D e IH]; intros h s h' B; cbn [lbuild brefs] in B |- *.
  - apply bindO_Ok_inv in B as [r [_ B]]. destruct (dims s0); [|discriminate]. unfold leaf_obj in B. destruct l as [|o|].
    + injection B as <- <-. reflexivity.
    + destruct (needs_object (TempView o) s0); injection B as <- <-; cbn [ybeg refs]; rewrite app_length; cbn [length]; replace (length h + 1)%nat with (S (length h)) by lia; reflexivity.
    + injection B as <- <-. cbn. rewrite app_length. cbn. f_equal. lia.
  - apply bindO_Ok_inv in B as [[s' k] [E B]]. injection B as <- <-. apply (U (F1 f) e h s' k (ydim s')). apply IH. exact E.
  - apply bindO_Ok_inv in B as [[s1 k1] [E1 B]]. apply bindO_Ok_inv in B as [[s2 k2] [E2 B]]. apply bindO_Ok_inv in B as [u [_ B]]. injection B as <- <-.
    apply IH1 in E1. apply IH2 in E2. cbn [fst snd] in *. rewrite <- E1, <- E2. cbn. rewrite app_length. cbn. f_equal. lia.
  - apply bindO_Ok_inv in B as [[s' k] [E B]]. injection B as <- <-. apply (U (F1 (left_operation c f)) e h s' k (ydim s')). apply IH. exact E.
  - apply bindO_Ok_inv in B as [[s' k] [E B]]. injection B as <- <-. apply (U (F1 (right_operation c f)) e h s' k (ydim s')). apply IH. exact E.
  - apply bindO_Ok_inv in B as [[s' k] [E B]]. apply bindO_Ok_inv in B as [es [_ B]]. injection B as <- <-. apply (U FFwd e h s' k es). apply IH. exact E.
Qed.

Lemma brefs_mono e : forall n, (n <= snd (brefs e n))%nat /\ Forall (fun o => (n <= o < snd (brefs e n))%nat) (fst (brefs e n)).
Proof.
  induction e as [l sid s|f e IH|f e1 IH1 e2 IH2|f c e IH|f e IH c|D e IH]; intros n; cbn [brefs].
  - destruct l as [|o|]; cbn [fst snd]; split; auto. all: destruct (needs_object _ _); auto.
  - specialize (IH n). destruct (brefs e n) as [r k]. cbn in *. destruct IH as [A B]. split; [lia|]. constructor; [lia|]. eapply Forall_impl; [|exact B]. cbn. intros; lia.
  - specialize (IH1 n). destruct (brefs e1 n) as [r k]. specialize (IH2 k). destruct (brefs e2 k) as [r2 k2]. cbn in *. destruct IH1 as [A B], IH2 as [A2 B2].
    split; [lia|]. constructor; [lia|]. apply Forall_app. split; (eapply Forall_impl; [|eassumption]); cbn; intros; lia.
  - specialize (IH n). destruct (brefs e n) as [r k]. cbn in *. destruct IH as [A B]. split; [lia|]. constructor; [lia|]. eapply Forall_impl; [|exact B]. cbn. intros; lia.
  - specialize (IH n). destruct (brefs e n) as [r k]. cbn in *. destruct IH as [A B]. split; [lia|]. constructor; [lia|]. eapply Forall_impl; [|exact B]. cbn. intros; lia.
  - specialize (IH n). destruct (brefs e n) as [r k]. cbn in *. destruct IH as [A B]. split; [lia|]. constructor; [lia|]. eapply Forall_impl; [|exact B]. cbn. intros; lia.
Qed.

(** No object is referred to exactly by operands that survive. *)
Lemma leaf_refs fuel m (e : @lexpr V) es : expr_ok fuel m (erase e) es -> operations (erase e) = 0%nat -> forall n,
  fst (brefs e n) = [] <-> Forall survives (operands e).
Proof.
  intros K Z n. destruct e as [l sid s| | | | |]; cbn in Z; try discriminate. cbn [brefs operands].
  inversion K as [sid' s' es' ps [Hd [_ [Hn _]]] _ | | | |]; subst.
  assert (Q : fst (match l with Named => ([], n) | _ => (if needs_object l s then [n] else [], S n) end) = [] <-> needs_object l s = false).
  { destruct l as [|o|]; cbn [fst]; [cbn; tauto| |]; destruct (needs_object _ _); split; congruence. }
  rewrite Q. split.
  - intros N. constructor; auto. destruct l as [|o|]; cbn in N; [constructor| |discriminate].
    destruct s as [p|off es0|off es0 M|off [d|d idx]|off mp args]; cbn in Hd; try discriminate; [constructor| |subst o; constructor].
    constructor. injection Hd as <-. destruct (sd_exts d) as [|? [|]]; cbn in *; congruence.
  - intros F. inversion F as [|x xs S _]; subst. inversion S as [| | ? ? ? H1|]; subst; cbn; auto. rewrite H1. reflexivity.
Qed.

Lemma endfe_snoc (h : lheap) f : end_of_full_expression (h ++ [f]) = map (fun _ => None) h ++ [f].
Proof. unfold end_of_full_expression. rewrite removelast_last, last_last. destruct (h ++ [f]) eqn:E; auto. destruct h; discriminate. Qed.

Lemma endfe_either (h : lheap) o : nth_error (end_of_full_expression h) o = nth_error h o \/ dead (end_of_full_expression h) o.
Proof.
  destruct h as [|a h'] using rev_ind; [left; reflexivity|]. rewrite endfe_snoc. unfold dead.
  destruct (Nat.lt_ge_cases o (length h')) as [L|L].
  - right. rewrite nth_error_app1 by (rewrite map_length; auto). rewrite nth_error_map. destruct (nth_error h' o); cbn; auto.
  - left. rewrite !nth_error_app2, map_length; auto. rewrite map_length. exact L.
Qed.
Lemma endfe_dead (h : lheap) o : (S o < length h)%nat -> dead (end_of_full_expression h) o.
Proof.
  destruct h as [|a h'] using rev_ind; [cbn; lia|]. rewrite endfe_snoc, app_length. cbn. intros L. unfold dead.
  rewrite nth_error_app1 by (rewrite map_length; lia). rewrite nth_error_map. destruct (nth_error h' o); cbn; auto.
Qed.
Lemma endfe_last (h : lheap) o : (length h <= S o)%nat -> nth_error (end_of_full_expression h) o = nth_error h o.
Proof.
  destruct h as [|a h'] using rev_ind; [reflexivity|]. rewrite endfe_snoc, app_length. cbn. intros L.
  rewrite !nth_error_app2, map_length; auto; rewrite ?map_length; lia.
Qed.

Definition usable (e : @lexpr V) : Prop := operations (erase e) = 0%nat \/ (operations (erase e) = 1%nat /\ Forall survives (operands e)).

(** References to objects other than the last one. *)
Lemma refs_of_usable fuel m (e : @lexpr V) es : expr_ok fuel m (erase e) es -> usable e ->
  Forall (fun o => (snd (brefs e 0) <= S o)%nat) (fst (brefs e 0)).
Proof.
  intros K [Z|[Z F]].
  - destruct e as [l sid s| | | | |]; cbn in Z; try discriminate. cbn [brefs]. destruct l as [|o|]; cbn [fst snd]; auto; destruct (needs_object _ s); auto.
  - destruct e as [l sid s|f e|f e e2|f c e|f e c|D e]; cbn in Z, F; try discriminate; injection Z as Z; cbn [erase] in K; inversion K; subst.
    all: try (match goal with H : expr_ok _ _ (erase ?x) ?q, Z : operations (erase ?x) = 0%nat, F : Forall survives (operands ?x) |- _ => pose proof (proj2 (leaf_refs _ _ x q H Z 0) F) as R;
              cbn [brefs]; destruct (brefs x 0) as [r k]; cbn in R |- *; subst r; constructor; [lia|constructor] end).
    assert (Z1 : operations (erase e) = 0%nat) by lia. assert (Z2 : operations (erase e2) = 0%nat) by lia. apply Forall_app in F as [F1 F2].
    match goal with H : expr_ok _ _ (erase e) ?q |- _ => pose proof (proj2 (leaf_refs _ _ e q H Z1 0) F1) as R1 end.
    cbn [brefs]. destruct (brefs e 0) as [r k]. cbn in R1. subst r.
    match goal with H : expr_ok _ _ (erase e2) ?q |- _ => pose proof (proj2 (leaf_refs _ _ e2 q H Z2 k) F2) as R2 end.
    destruct (brefs e2 k) as [r k2]. cbn in R2 |- *. subst r. constructor; [lia|constructor].
Qed.

Lemma inner_ref fuel m (e : @lexpr V) es n : expr_ok fuel m (erase e) es ->
  ((1 <= operations (erase e))%nat \/ ~ Forall survives (operands e)) -> fst (brefs e n) <> [].
Proof.
  intros K [H|H].
  - destruct e as [l sid s|f e|f e1 e2|f c e|f e c|D e]; cbn in H |- *; try lia.
    + destruct (brefs e n). discriminate. + destruct (brefs e1 n). destruct (brefs e2 _). discriminate.
    + destruct (brefs e n). discriminate. + destruct (brefs e n). discriminate. + destruct (brefs e n). discriminate.
  - destruct (operations (erase e)) eqn:Z.
    + intros E. apply H. apply (leaf_refs _ _ _ _ K Z n). exact E.
    + destruct e as [l sid s|f e|f e1 e2|f c e|f e c|D e]; cbn in Z |- *; try discriminate.
      * destruct (brefs e n). discriminate. * destruct (brefs e1 n). destruct (brefs e2 _). discriminate.
      * destruct (brefs e n). discriminate. * destruct (brefs e n). discriminate. * destruct (brefs e n). discriminate.
Qed.

Lemma survives_dec o : survives o \/ ~ survives o.
Proof.
  destruct o as [[|owns|] s]; [left; constructor| |right; intros H; inversion H].
  destruct s as [p|off es|off es M|off [d|d idx]|off mp args]; try (right; intros H; inversion H; fail); [left; constructor| |].
  - destruct (Nat.eq_dec (length (sd_exts d)) 1); [left; constructor; auto|right; intros H; inversion H; auto].
  - destruct owns; [right; intros H; inversion H|left; constructor].
Qed.
Lemma all_survive_dec l : Forall survives l \/ ~ Forall survives l.
Proof.
  induction l as [|o l [IH|IH]]; [left; constructor| |right; intros H; inversion H; auto].
  destruct (survives_dec o); [left; constructor; auto|right; intros H'; inversion H'; auto].
Qed.

Lemma refs_of_unusable fuel m (e : @lexpr V) es : expr_ok fuel m (erase e) es -> ~ usable e ->
  exists o, In o (fst (brefs e 0)) /\ (S o < snd (brefs e 0))%nat.
Proof.
  intros K N. assert (Z : (1 <= operations (erase e))%nat). { destruct (operations (erase e)) eqn:Z; [|lia]. exfalso. apply N. left. exact Z. }
  assert (One : forall e' es', expr_ok fuel m (erase e') es' -> ((1 <= operations (erase e'))%nat \/ ~ Forall survives (operands e')) ->
    exists o, In o (fst (let (r, k) := brefs e' 0 in (k :: r, S k))) /\ (S o < snd (let (r, k) := brefs e' 0 in (k :: r, S k)))%nat).
  { intros e' es' K' H. pose proof (inner_ref _ _ _ _ 0%nat K' H) as R. pose proof (brefs_mono e' 0) as [_ B]. destruct (brefs e' 0) as [r k]. cbn in *.
    destruct r as [|o r]; [congruence|]. inversion B; subst. exists o. split; [right; left; auto|lia]. }
  destruct e as [l sid s|f e|f e e2|f c e|f e c|D e]; cbn in Z; try lia; cbn [erase] in K; inversion K; subst; cbn [brefs].
  all: try (match goal with H : expr_ok _ _ (erase ?x) _ |- _ => eapply (One x); [exact H|]; destruct (operations (erase x)) eqn:Z'; [right; intros F; apply N; right; split; cbn; auto; lia|left; lia] end).
  assert (H : ((1 <= operations (erase e))%nat \/ ~ Forall survives (operands e)) \/ ((1 <= operations (erase e2))%nat \/ ~ Forall survives (operands e2))).
  { destruct (operations (erase e)) eqn:Z1; [|left; left; lia]. destruct (operations (erase e2)) eqn:Z2; [|right; left; lia].
    destruct (all_survive_dec (operands e)) as [F1|F1]; [|auto]. destruct (all_survive_dec (operands e2)) as [F2|F2]; [|auto].
    exfalso. apply N. right. cbn. split; [lia|]. apply Forall_app. auto. }
  pose proof (brefs_mono e 0) as [M1 B1]. destruct (brefs e 0) as [r1 k1] eqn:E1. cbn in *.
  pose proof (brefs_mono e2 k1) as [M2 B2]. destruct (brefs e2 k1) as [r2 k2] eqn:E2. cbn in *.
  destruct H as [H|H].
  - match goal with Q : expr_ok _ _ (erase e) ?q |- _ => pose proof (inner_ref _ _ _ _ 0%nat Q H) as R end. rewrite E1 in R. cbn in R.
    destruct r1 as [|o r1]; [congruence|]. inversion B1; subst. exists o. split; [right; left; auto|lia].
  - match goal with Q : expr_ok _ _ (erase e2) ?q |- _ => pose proof (inner_ref _ _ _ _ k1 Q H) as R end. rewrite E2 in R. cbn in R.
    destruct r2 as [|o r2]; [congruence|]. inversion B2; subst. exists o. split; [right; apply in_or_app; right; left; auto|lia].
Qed.

Lemma stored_usable chk fuel m (e : @lexpr V) es : expr_ok fuel m (erase e) es -> usable e -> leval_stored chk m e = eval_expr chk m (erase e).
Proof.
  intros K U. rewrite <- leval_is_eval. unfold leval_stored, leval_expr. destruct (lbuild chk e []) as [[s h]| | | |] eqn:E; cbn [bindO]; try tauto.
  cbn [fst snd]. unfold lmaterialise. rewrite (copy_alive h); auto.
  intros o I. apply endfe_last. pose proof (build_refs _ _ _ _ _ E) as R. cbn in R. pose proof (refs_of_usable _ _ _ _ K U) as F. rewrite <- R in F. cbn in F.
  rewrite Forall_forall in F. apply F. exact I.
Qed.

Lemma stored_unusable chk fuel m (e : @lexpr V) es : expr_ok fuel m (erase e) es -> 0 < zprod es -> ~ usable e -> leval_stored chk m e = UB.
Proof.
  intros K P U. unfold leval_stored. destruct (eval_expr_spec chk fuel m (erase e) es K) as (vs & Ev & Lv & _).
  rewrite <- leval_is_eval in Ev. unfold leval_expr in Ev. destruct (lbuild chk e []) as [[s h]| | | |] eqn:E; cbn [bindO] in Ev |- *; try discriminate.
  cbn [fst snd] in *. unfold lmaterialise in *. apply bindO_Ok_inv in Ev as [[us rs] [C Ev]]. injection Ev as D1 D2 D3. cbn in D2. subst us.
  destruct (Z.to_nat (prod_arr (ydim s))) as [|n] eqn:N.
  - cbn in C. injection C as <- _. cbn in Lv. lia.
  - cbn [lcopy_n] in C |- *. apply bindO_Ok_inv in C as [r [Dr _]].
    pose proof (build_refs _ _ _ _ _ E) as R. cbn in R. destruct (refs_of_unusable _ _ _ _ K U) as (o & I & L). rewrite <- R in I, L. cbn in I, L.
    rewrite (deref_dead h _ m (ybeg s) r o Dr (endfe_either h) I (endfe_dead h o L)). reflexivity.
Qed.

(** With named operands: the model of [Expr]. *)
Lemma stored_named chk fuel m (e : @lexpr V) es : expr_ok fuel m (erase e) es -> 0 < zprod es -> Forall (fun o => fst o = Named) (operands e) ->
  leval_stored chk m e = eval_stored chk m (erase e).
Proof.
  intros K P F.
  assert (S : Forall survives (operands e)). { eapply Forall_impl; [|exact F]. intros [l s] Q. cbn in Q. subst l. constructor. }
  destruct (Nat.le_gt_cases (operations (erase e)) 1) as [L|L].
  - rewrite (stored_single_level _ _ _ _ _ K L). apply (stored_usable _ _ _ _ _ K).
    destruct (operations (erase e)) as [|[|]] eqn:Z; [left; auto|right; auto|lia].
  - rewrite (stored_nested_undefined _ _ _ _ _ K) by (auto; lia). apply (stored_unusable _ _ _ _ _ K P). intros [Z|[Z _]]; lia.
Qed.

End P.
