(** * PropFrameVars: property C76 (dataframe variables are independent values).

    [exec c e] (Frame.v): the variables after the command [c] and how it ended; [var] number k of [e] is [nth_error e k]. *)

From Coq Require Import ZArith Bool Ascii String List Lia.
From Verif Require Import Base Coerce Frame FrameSpec FrameProofs FrameText PropFrame.
From Verif Require PropFrameText.
Import ListNotations.
Open Scope Z_scope.
Open Scope list_scope.

(** The variables a command may change. *)
Definition changes (c : cmd) : list nat :=
  match c with
  | CMove j => [j]
  | CAssign _ i _ | CReadInto i _ => [i]
  | CMoveAssign i j | CBind i (BMove j) => [i; j]
  | CBind i _ => [i]
  | _ => []
  end.

(** Commands one after the other; exceptions are caught. *)
Inductive history : list cmd -> env -> env -> Prop :=
| history_nil e : history [] e e
| history_cons c cs e e1 e' r : exec c e = (e1, r) -> (r = Ok tt \/ exists x, r = Throw x) -> history cs e1 e' -> history (c :: cs) e e'.

Lemma upd_other {A} (l : list A) : forall i k v, i <> k -> nth_error (upd_nat l i v) k = nth_error l k.
Proof. induction l as [|a l IH]; intros [|i] [|k] v H; cbn; auto; try congruence. Qed.
Lemma upd_same {A} (l : list A) : forall i v, (i < length l)%nat -> nth_error (upd_nat l i v) i = Some v.
Proof. induction l as [|a l IH]; intros [|i] v H; cbn in *; try lia; auto. apply IH. lia. Qed.
Lemma new_old e o e' r k : new e o = (e', r) -> (k < length e)%nat -> nth_error e' k = nth_error e k.
Proof. unfold new. destruct o; intros H; injection H as <- _; intros L; auto. now apply nth_error_app1. Qed.

Lemma others c e e' r k : exec c e = (e', r) -> ~ In k (changes c) -> (k < length e)%nat -> nth_error e' k = nth_error e k /\ (k < length e')%nat.
Proof.
  intros E N L. assert (nth_error e' k = nth_error e k) as H; [|split; [auto|]; apply nth_error_Some; rewrite H; now apply nth_error_Some].
  destruct c; cbn [exec changes In] in *; try (eapply new_old; eassumption).
  - destruct (nth_error e j) as [d|]; [|injection E as <- _; auto]. cbn in E. injection E as <- _. rewrite nth_error_app1 by (rewrite upd_nat_length; auto). apply upd_other. tauto.
  - destruct (nth_error e i) as [di|], (nth_error e j) as [dj|]; try (injection E as <- _; auto). destruct (Nat.eqb i j); [injection E as <- _; auto|].
    destruct (df_assign cap di dj); injection E as <- _; auto. apply upd_other. tauto.
  - destruct (nth_error e i) as [di|], (nth_error e j) as [dj|]; try (injection E as <- _; auto). destruct (Nat.eqb i j); [injection E as <- _; auto|].
    cbn in E. injection E as <- _. rewrite !upd_other by tauto. auto.
  - assert (K : forall e1 o, eval_arg e a = (e1, o) -> nth_error e1 k = nth_error e k).
    { intros e1 o Ea. destruct a; cbn [eval_arg In] in *; try (injection Ea as <- _; auto). destruct (nth_error e j) as [d|]; [|injection Ea as <- _; auto].
      cbn in Ea. injection Ea as <- _. apply upd_other. tauto. }
    assert (Ni : i <> k) by (destruct a; cbn in N; tauto).
    destruct (eval_arg e a) as [e1 o]. specialize (K e1 o eq_refl). destruct o as [w| | | |]; try (injection E as <- _; auto).
    destruct (nth_error e1 i) as [d|]; [|injection E as <- _; auto]. destruct (bind d w) as [d' r']. injection E as <- _. rewrite upd_other; auto.
  - destruct (nth_error e i) as [di|]; [|injection E as <- _; auto]. destruct (read true is_nl is_tab t); injection E as <- _; auto. apply upd_other. tauto.
Qed.

(** A command changes no other variable than those it names, however it ends; so no history of commands that do not name a variable changes it. *)
Theorem C76_others : forall c e e' r k, exec c e = (e', r) -> ~ In k (changes c) -> (k < length e)%nat -> nth_error e' k = nth_error e k.
Proof. intros c e e' r k E N L. now apply (others c e e' r k). Qed.
Print Assumptions C76_others.
Theorem C76_histories : forall cs e e' k, history cs e e' -> (forall c, In c cs -> ~ In k (changes c)) -> (k < length e)%nat -> nth_error e' k = nth_error e k.
Proof.
  intros cs e e' k H. induction H as [|c cs e e1 e' r E R H IH]; intros N L; [reflexivity|].
  destruct (others c e e1 r k E (N c (or_introl eq_refl)) L) as [E1 L1]. rewrite <- E1. apply IH; auto. intros c' I. apply N. now right.
Qed.
Print Assumptions C76_histories.

(** A command that throws changes nothing, except that a dataframe moved into [bind] is empty afterwards. *)
Theorem C76_throw : forall c e e' x, exec c e = (e', Throw x) ->
  match c with
  | CBind i (BMove j) => (forall k, k <> j -> nth_error e' k = nth_error e k) /\ exists d, nth_error e' j = Some d /\ elems d = []
  | _ => e' = e
  end.
Proof.
  intros c e e' x E. destruct c as [| | | | | |cap i j|i j|i a|h ls cs t|i t|n j]; cbn [exec] in E;
    try (match type of E with new e ?o = _ => unfold new in E; destruct o; try discriminate E; injection E; auto; fail end).
  - destruct (nth_error e j); discriminate E.
  - destruct (nth_error e i), (nth_error e j); try discriminate E. destruct (Nat.eqb i j); [discriminate E|]. destruct (df_assign cap d d0); try discriminate E. injection E as <- _. auto.
  - destruct (nth_error e i), (nth_error e j); try discriminate E. destruct (Nat.eqb i j); discriminate E.
  - assert (B : forall d o d' r, bind d o = (d', r) -> r = Throw x -> d' = d).
    { intros d o d' r Eb Er. destruct (C32_bind_strong d o d' r Eb) as [[_ Hd]|[Hr _]]; [exact Hd|congruence]. }
    assert (S : forall e1 o, (match o with
      | Ok other => match nth_error e1 i with Some d => let '(d', r) := bind d other in (upd_nat e1 i d', r) | None => (e1, UB) end
      | Throw x => (e1, Throw x) | Abort => (e1, Abort) | UB => (e1, UB) | Timeout => (e1, Timeout) end) = (e', Throw x) -> e' = e1).
    { intros e1 o H. destruct o as [w| | | |]; try discriminate H; [|injection H; auto]. destruct (nth_error e1 i) as [d|] eqn:Ei; [|discriminate H].
      destruct (bind d w) as [d' r] eqn:Eb. injection H as <- Hr. rewrite (B _ _ _ _ Eb Hr). clear - Ei. revert i Ei.
      induction e1 as [|a l IH]; intros [|i] Ei; cbn in *; try discriminate; [injection Ei as ->; auto|f_equal; auto]. }
    destruct a as [j|j|c|c|l]; [exact (S e (let* d := var e j in df_copy d) E)| |exact (S e (Ok (ctor_named c)) E)|exact (S e (ctor_column c) E)|exact (S e (ctor_range l) E)].
    cbn [eval_arg] in E. destruct (nth_error e j) as [d|] eqn:Ej; [|discriminate E].
    cbn [df_move] in E. apply (S _ (Ok d)) in E. subst e'. split; [intros k Hk; apply upd_other; auto|]. eexists. split; [apply upd_same; apply nth_error_Some; congruence|reflexivity].
  - destruct (nth_error e i); [|discriminate E]. destruct (read true is_nl is_tab t); try discriminate E. injection E; auto.
Qed.
Print Assumptions C76_throw.

(** Copies, moves and assignments: the value of the source, whatever the destination held (and whatever room it had). *)
Theorem C76_values : forall e e' r,
  (forall j, exec (CCopy j) e = (e', r) -> r = Ok tt -> exists d, nth_error e j = Some d /\ e' = e ++ [d]) /\
  (forall j, exec (CMove j) e = (e', r) -> r = Ok tt -> exists d d0, nth_error e j = Some d /\ nth_error e' (length e) = Some d /\ nth_error e' j = Some d0 /\ elems d0 = []) /\
  (forall cap i j, exec (CAssign cap i j) e = (e', r) -> r = Ok tt -> nth_error e' i = nth_error e j /\ nth_error e' j = nth_error e j) /\
  (forall i j, exec (CMoveAssign i j) e = (e', r) -> r = Ok tt -> exists d0, nth_error e' i = nth_error e j /\ nth_error e' j = Some d0 /\ elems d0 = []).
Proof.
  intros e e' r. split; [|split; [|split]].
  - intros j E R. cbn [exec] in E. unfold var in E. destruct (nth_error e j) as [d|]; cbn [bindO] in E; [|unfold new in E; injection E as _ <-; discriminate R].
    exists d. split; [reflexivity|]. unfold new, df_copy in E. destruct (mapO ncol_copy (elems d)) as [es| | | |] eqn:Em; cbn [bindO] in E; injection E as <- <-; try discriminate R.
    apply mapO_copy in Em. destruct Em as [-> _]. now destruct d.
  - intros j E R. cbn [exec] in E. destruct (nth_error e j) as [d|] eqn:Ej; [|injection E as _ <-; discriminate R]. cbn in E. injection E as <- _.
    assert (L : (j < length e)%nat) by (apply nth_error_Some; congruence).
    exists d. eexists. split; [reflexivity|]. split; [rewrite nth_error_app2; rewrite upd_nat_length; [rewrite Nat.sub_diag; reflexivity|lia]|].
    split; [rewrite nth_error_app1 by (rewrite upd_nat_length; auto); now apply upd_same|reflexivity].
  - intros cap i j E R. cbn [exec] in E. destruct (nth_error e i) as [di|] eqn:Ei; [|injection E as _ <-; discriminate R]. destruct (nth_error e j) as [dj|] eqn:Ej; [|injection E as _ <-; discriminate R].
    destruct (Nat.eqb i j) eqn:Eq; [apply Nat.eqb_eq in Eq; subst j; injection E as <- _; rewrite Ei in *; auto|]. apply Nat.eqb_neq in Eq.
    destruct (df_assign cap di dj) as [d| | | |] eqn:Ed; injection E as <- <-; try discriminate R. apply df_assign_Ok in Ed. subst d.
    split; [apply upd_same; apply nth_error_Some; congruence|rewrite upd_other by auto; exact Ej].
  - intros i j E R. cbn [exec] in E. destruct (nth_error e i) as [di|] eqn:Ei; [|injection E as _ <-; discriminate R]. destruct (nth_error e j) as [dj|] eqn:Ej; [|injection E as _ <-; discriminate R].
    destruct (Nat.eqb i j) eqn:Eq; [injection E as _ <-; discriminate R|]. apply Nat.eqb_neq in Eq. cbn in E. injection E as <- _.
    eexists. split; [apply upd_same; rewrite upd_nat_length; apply nth_error_Some; congruence|].
    split; [rewrite upd_other by auto; apply upd_same; apply nth_error_Some; congruence|reflexivity].
Qed.
Print Assumptions C76_values.

(** [is >> df]: the dataframe read, or an exception and [df] as it was. *)
Theorem C76_read_into : forall i t e, (i < length e)%nat ->
  (exists d, read true is_nl is_tab t = Ok d /\ exec (CReadInto i t) e = (upd_nat e i d, Ok tt)) \/
  (read true is_nl is_tab t = Throw LogicError /\ exec (CReadInto i t) e = (e, Throw LogicError)).
Proof.
  intros i t e L. cbn [exec]. destruct (nth_error e i) as [d0|] eqn:Ei; [|apply nth_error_None in Ei; lia].
  destruct (PropFrameText.C33_read_total true is_nl is_tab t) as [(d & E & _)|E]; rewrite E; [left; eauto|right; auto].
Qed.
Print Assumptions C76_read_into.

(** A new variable for a dataframe that is read or constructed: the variable appears with that value, or the exception of the constructor arrives and
    there is no new variable; the other variables are as they were. *)
Theorem C76_new : forall e,
  (forall h ls cs t, (exists d, read h ls cs t = Ok d /\ exec (CRead h ls cs t) e = (e ++ [d], Ok tt)) \/
                     (read h ls cs t = Throw LogicError /\ exec (CRead h ls cs t) e = (e, Throw LogicError))) /\
  (forall l, (forall d, ctor_range l = Ok d -> exec (CRange l) e = (e ++ [d], Ok tt)) /\
             (forall x, ctor_range l = Throw x -> exec (CRange l) e = (e, Throw x))) /\
  (forall n j d, nth_error e j = Some d ->
             (forall d', head n d = Ok d' -> exec (CHead n j) e = (e ++ [d'], Ok tt)) /\
             (forall x, head n d = Throw x -> exec (CHead n j) e = (e, Throw x))).
Proof.
  intros e. repeat split.
  - intros h ls cs t. cbn [exec]. destruct (PropFrameText.C33_read_total h ls cs t) as [(d & E & _)|E]; rewrite E; [left; eauto|right; auto].
  - intros d E. cbn [exec]. now rewrite E.
  - intros x E. cbn [exec]. now rewrite E.
  - intros d' E. cbn [exec]. unfold var. rewrite H. cbn [bindO]. now rewrite E.
  - intros x E. cbn [exec]. unfold var. rewrite H. cbn [bindO]. now rewrite E.
Qed.
Print Assumptions C76_new.
Example C76_new_ex : exec (CRead true is_nl is_tab ["a"; "009"; "b"; "010"; "1"; "010"]%char) [df_default] = ([df_default], Throw LogicError).
Proof. reflexivity. Qed.

(** Copying is defined exactly when every column holds data; assignment also when columns without data fall on columns that are already there. *)
Theorem C76_copy_defined : forall d, df_copy d = Ok d \/ (df_copy d = UB /\ exists nc, In nc (elems d) /\ ncolumn nc = None).
Proof.
  intros d. unfold df_copy. assert (H : mapO ncol_copy (elems d) = Ok (elems d) \/ (mapO ncol_copy (elems d) = UB /\ exists nc, In nc (elems d) /\ ncolumn nc = None)).
  { induction (elems d) as [|[n [m|]] l IH]; cbn [mapO]; [now left| |].
    - unfold ncol_copy at 1. cbn. destruct IH as [->|[-> (nc & I & Hn)]]; cbn; [now left|right]. split; [reflexivity|exists nc; split; [now right|auto]].
    - right. unfold ncol_copy at 1. cbn. split; [reflexivity|]. exists (mkN n None). split; [now left|reflexivity]. }
  destruct H as [->|[-> Hn]]; cbn; [left; now destruct d|right; auto].
Qed.
Print Assumptions C76_copy_defined.

(** The constructor from a range of columns with data makes a new variable with those columns, in
    order, or throws and makes none: it throws exactly when a name occurs twice or the columns do
    not all have the number of rows of the first.  head(n) past the rows throws and makes none; the
    default, the single-column and the reading constructors never touch an existing variable. *)
Theorem C76_constructions : forall e,
  (forall nc l, (forall c, In c (nc :: l) -> ncolumn c <> None) ->
     (unique_names (map nname (nc :: l)) /\ (forall c, In c l -> col_size (ncolumn c) = col_size (ncolumn nc)) ->
        exists d, elems d = nc :: l /\ rows d = col_size (ncolumn nc) /\ exec (CRange (nc :: l)) e = (e ++ [d], Ok tt)) /\
     (~ (unique_names (map nname (nc :: l)) /\ (forall c, In c l -> col_size (ncolumn c) = col_size (ncolumn nc))) ->
        exec (CRange (nc :: l)) e = (e, Throw LogicError))) /\
  (forall n j d, nth_error e j = Some d -> rows d < n -> exec (CHead n j) e = (e, Throw OutOfRange)) /\
  (exists d, elems d = [] /\ exec CDefault e = (e ++ [d], Ok tt)) /\
  (forall nc, exists d, elems d = [nc] /\ exec (CNamed nc) e = (e ++ [d], Ok tt)) /\
  (forall m, exists d, elems d = [mkN [] (Some m)] /\ exec (CColumn (Some m)) e = (e ++ [d], Ok tt)) /\
  (forall h ls cs t, (exists d, read h ls cs t = Ok d /\ exec (CRead h ls cs t) e = (e ++ [d], Ok tt)) \/
     (read h ls cs t = Throw LogicError /\ exec (CRead h ls cs t) e = (e, Throw LogicError))).
Proof.
  intros e. repeat apply conj.
  - intros nc l Hc.
    assert (E : map ncol_copy (nc :: l) = map Ok (nc :: l)).
    { apply map_ext_in. intros c Hin. specialize (Hc c Hin). destruct c as [n [m|]]; cbn in *; [reflexivity|congruence]. }
    split.
    + intros [U F]. cbn [exec]. unfold ctor_range. rewrite E. cbn [map ctor_from bindO].
      rewrite push_all_intro by (apply Forall_forall; assumption). cbn [bindO].
      destruct (build_index_total ([nc] ++ l) 0 []) as [r ->]; [split; [exact U|reflexivity]|]. cbn [bindO new].
      eexists. split; [|split; [|reflexivity]]; reflexivity.
    + intros N. cbn [exec]. destruct (ctor_range_total (nc :: l)) as [[d Hd]|H]; [discriminate|exact Hc| |rewrite H; reflexivity].
      elim N. pose proof (ctor_range_Ok _ _ Hd) as El. unfold ctor_range in Hd. apply ctor_from_Ok in Hd.
      destruct Hd as (_ & R & U & _). unfold names in U. rewrite El in U. split; [exact U|].
      intros c Hin. unfold rect in R. rewrite El, Forall_forall in R. transitivity (rows d); [apply R; now right|symmetry; apply R; now left].
  - intros n j d Ej L. cbn [exec]. unfold var. rewrite Ej. cbn [bindO]. unfold head.
    destruct (rows d <? n) eqn:X; [reflexivity|lia].
  - eexists; split; [|reflexivity]; reflexivity.
  - intros nc. eexists; split; [|reflexivity]; reflexivity.
  - intros m. eexists; split; [|reflexivity]; reflexivity.
  - intros h ls cs t. cbn [exec].
    destruct (PropFrameText.C33_read_total h ls cs t) as [(d & E & _)|E]; rewrite E; [left; eauto|right; auto].
Qed.
Print Assumptions C76_constructions.
Example C76_constructions_ex : let e := [mkDf 2 [mkN c_a k12] [(c_a, 0)]] in
  exec (CRange [mkN c_a k12; mkN c_a k34]) e = (e, Throw LogicError) /\ exec (CRange [mkN c_a k12; mkN c_b k567]) e = (e, Throw LogicError) /\
  exec (CRange [mkN c_a k12; mkN c_b k34]) e = (e ++ [mkDf 2 [mkN c_a k12; mkN c_b k34] [(c_a, 0); (c_b, 1)]], Ok tt) /\
  exec (CHead 3 0) e = (e, Throw OutOfRange).
Proof. repeat split; reflexivity. Qed.

(** Three variables; a copy, an assignment, a failing bind by copy and a failing bind by move. *)
Example C76_ex :
  let a := mkDf 2 [mkN c_a k12] [(c_a, 0)] in let b := mkDf 2 [mkN c_b k34] [(c_b, 0)] in
  exec (CCopy 0) [a; b] = ([a; b; a], Ok tt) /\ exec (CAssign 0 0 1) [a; b] = ([b; b], Ok tt) /\
  exec (CBind 0 (BCopy 0)) [a; b] = ([a; b], Throw LogicError) /\ exec (CBind 0 (BMove 1)) [a; a] = ([a; mkDf 2 [] []], Throw LogicError) /\
  exec (CReadInto 1 ["x"; "010"; "1"; "009"; "2"]%char) [a; b] = ([a; b], Throw LogicError) /\
  history [CCopy 0; CBind 2 (BCopy 1); CBind 2 (BCopy 1)] [a; b] [a; b; mkDf 2 [mkN c_a k12; mkN c_b k34] [(c_a, 0); (c_b, 1)]].
Proof.
  split; [reflexivity|]. split; [reflexivity|]. split; [reflexivity|]. split; [reflexivity|]. split; [vm_compute; reflexivity|].
  econstructor; [reflexivity|now left|]. econstructor; [reflexivity|now left|]. econstructor; [vm_compute; reflexivity|right; eauto|]. constructor.
Qed.
