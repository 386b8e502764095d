(** * IoText: the printed text determines the array. *)

From Coq Require Import ZArith Ascii List Bool Lia.
From Verif Require Import Base Spec Lemmas SliceProofs Io IoSpec IoProofs.
Import ListNotations.
Open Scope Z_scope.

Definition delims : list ascii := ["{"; "}"; " "]%char.

(** The rest after an item: empty, or it begins with one of [cs]. *)
Definition starts (cs : list ascii) (r : text) : Prop := match r with [] => True | c :: _ => In c cs end.

Lemma free_split cs t t' r r' : free_of cs t -> free_of cs t' -> starts cs r -> starts cs r' -> t ++ r = t' ++ r' -> t = t' /\ r = r'.
Proof.
  revert t'. induction t as [|c t IH]; intros [|c' t'] F F' S S' E; simpl in E; auto.
  - exfalso. subst r. simpl in S. apply (F' c'); simpl; auto.
  - exfalso. subst r'. simpl in S'. apply (F c); simpl; auto.
  - injection E as -> E. destruct (IH t') as [-> ->]; auto; intros x Hx; [apply F|apply F']; simpl; auto.
Qed.

Lemma join_cons2 sep t u ts : join sep (t :: u :: ts) = t ++ sep ++ join sep (u :: ts).
Proof. simpl. rewrite <- !app_assoc. reflexivity. Qed.

(** Items that can be cut off before a delimiter. *)
Lemma join_split (cs : list ascii) (s z : ascii) (items : list text) : forall items' r r',
  s <> z -> In s cs -> In z cs -> items <> [] -> items' <> [] ->
  (forall x x' r r', In x items -> In x' items' -> starts cs r -> starts cs r' -> x ++ r = x' ++ r' -> x = x' /\ r = r') ->
  join [s] items ++ z :: r = join [s] items' ++ z :: r' -> items = items' /\ r = r'.
Proof.
  induction items as [|x items IH]; intros [|x' items'] r r' D Hs Hz N N' H E; try congruence.
  destruct items as [|y items], items' as [|y' items'].
  - simpl in E. rewrite !app_nil_r in E. destruct (H x x' (z :: r) (z :: r')) as [-> E']; simpl; auto. injection E' as ->. auto.
  - rewrite join_cons2 in E. simpl in E. rewrite app_nil_r in E. rewrite <- app_assoc in E.
    match type of E with _ = _ ++ ?q => destruct (H x x' (z :: r) q) as [_ E']; simpl; auto end.
    exfalso. injection E' as E' _. congruence.
  - rewrite join_cons2 in E. simpl join in E at 2. rewrite app_nil_r in E. rewrite <- app_assoc in E.
    match type of E with _ ++ ?q = _ => destruct (H x x' q (z :: r')) as [_ E']; simpl; auto end.
    exfalso. injection E' as E' _. congruence.
  - rewrite !join_cons2 in E. rewrite <- !app_assoc in E.
    destruct (H x x' ([s] ++ join [s] (y :: items) ++ z :: r) ([s] ++ join [s] (y' :: items') ++ z :: r')) as [-> E']; simpl; auto.
    injection E' as E'.
    destruct (IH (y' :: items') r r') as [-> ->]; auto; try discriminate.
    intros. apply H; simpl; auto; simpl in *; tauto.
Qed.

Lemma iota_ne e : 0 < e -> iota e <> [].
Proof. intros H. rewrite (iota_pos e H). discriminate. Qed.

Lemma braces_cons e es f :
  braces (e :: es) f = ["{"%char] ++ join [" "%char] (map (fun i => braces es (fun ix => f (i :: ix))) (iota e)) ++ ["}"%char].
Proof. reflexivity. Qed.

Lemma braces_split : forall shape shape' f f' r r',
  all_pos shape -> all_pos shape' ->
  (forall ix, in_range shape ix -> f ix <> [] /\ free_of delims (f ix)) ->
  (forall ix, in_range shape' ix -> f' ix <> [] /\ free_of delims (f' ix)) ->
  starts delims r -> starts delims r' ->
  braces shape f ++ r = braces shape' f' ++ r' ->
  shape = shape' /\ (forall ix, in_range shape ix -> f ix = f' ix) /\ r = r'.
Proof.
  induction shape as [|e es IH]; intros [|e' es'] f f' r r' P P' F F' S S' E.
  - cbn [braces nested length repeat] in E. destruct (free_split delims (f []) (f' []) r r') as [A B]; auto.
    + apply F. constructor.
    + apply F'. constructor.
    + split; auto. split; auto. intros ix H. inversion H. auto.
  - exfalso. destruct (F [] ltac:(constructor)) as [A B]. rewrite braces_cons in E. simpl in E.
    unfold braces in E. cbn [nested length repeat] in E. destruct (f []) as [|c t]; [congruence|]. simpl in E. injection E as -> _.
    apply (B "{"%char); simpl; auto.
  - exfalso. destruct (F' [] ltac:(constructor)) as [A B]. rewrite braces_cons in E. simpl in E.
    unfold braces in E. cbn [nested length repeat] in E. destruct (f' []) as [|c t]; [congruence|]. simpl in E. injection E as <- _.
    apply (B "{"%char); simpl; auto.
  - inversion P as [|? ? He P1]; inversion P' as [|? ? He' P1']; subst.
    rewrite !braces_cons in E. simpl in E. injection E as E. rewrite <- !app_assoc in E. simpl in E.
    set (g := fun i => braces es (fun ix => f (i :: ix))) in *.
    set (g' := fun i => braces es' (fun ix => f' (i :: ix))) in *.
    assert (K : forall i i' q q', 0 <= i < e -> 0 <= i' < e' -> starts delims q -> starts delims q' ->
               g i ++ q = g' i' ++ q' -> es = es' /\ (forall ix, in_range es ix -> f (i :: ix) = f' (i' :: ix)) /\ q = q').
    { intros i i' q q' Hi Hi' Sq Sq' Eq. apply IH; auto; intros ix Hix; [apply F|apply F']; constructor; auto. }
    destruct (join_split delims " "%char "}"%char (map g (iota e)) (map g' (iota e')) r r') as [I R]; auto.
    + discriminate.
    + simpl; auto.
    + simpl; auto.
    + intros X. apply map_eq_nil in X. apply (iota_ne e He X).
    + intros X. apply map_eq_nil in X. apply (iota_ne e' He' X).
    + intros x x' q q' Hx Hx' Sq Sq' Eq. apply in_map_iff in Hx as (i & <- & Hi). apply in_map_iff in Hx' as (i' & <- & Hi').
      apply in_iota in Hi. apply in_iota in Hi'. destruct (K i i' q q' Hi Hi' Sq Sq' Eq) as (A & B & C). split; auto. subst es'.
      unfold g, g'. apply nested_ext; [rewrite repeat_length; auto|auto].
    + assert (L : length (iota e) = length (iota e')) by (apply (f_equal (@length _)) in I; rewrite !map_length in I; auto).
      rewrite !iota_length in L. assert (e = e') by lia. subst e'.
      assert (G : forall i, 0 <= i < e -> g i = g' i).
      { intros i Hi. apply (ext_in_map I). apply in_iota. auto. }
      destruct (K 0 0 [] [] ltac:(lia) ltac:(lia) Logic.I Logic.I) as (A & _ & _); [rewrite !app_nil_r; apply G; lia|].
      subst es'. split; auto. split; auto. intros ix Hix. inversion Hix as [|? i ? ix' Hi Hix']; subst.
      destruct (K i i [] [] Hi Hi Logic.I Logic.I) as (_ & B & _); [rewrite !app_nil_r; apply G; auto|]. apply B. auto.
Qed.

(** ** Tables *)
Lemma join_inj (c : ascii) : forall ts ts', ts <> [] -> ts' <> [] -> Forall (free_of [c]) ts -> Forall (free_of [c]) ts' ->
  join [c] ts = join [c] ts' -> ts = ts'.
Proof.
  induction ts as [|x ts IH]; intros [|x' ts'] N N' F F' E; try congruence.
  inversion F as [|? ? Fx Fts]; inversion F' as [|? ? Fx' Fts']; subst.
  destruct ts as [|y ts], ts' as [|y' ts'].
  - simpl in E. rewrite !app_nil_r in E. congruence.
  - exfalso. rewrite join_cons2 in E. simpl in E. rewrite app_nil_r in E.
    rewrite <- (app_nil_r x) in E. match type of E with _ = _ ++ ?q => destruct (free_split [c] x x' [] q) as [_ X]; simpl; auto end. discriminate.
  - exfalso. rewrite join_cons2 in E. simpl in E. rewrite app_nil_r in E.
    rewrite <- (app_nil_r x') in E. match type of E with _ ++ ?q = _ => destruct (free_split [c] x x' q []) as [_ X]; simpl; auto end. discriminate.
  - rewrite !join_cons2 in E. destruct (free_split [c] x x' ([c] ++ join [c] (y :: ts)) ([c] ++ join [c] (y' :: ts'))) as [-> E']; simpl; auto.
    injection E' as E'. rewrite (IH (y' :: ts')); auto; discriminate.
Qed.

Lemma join_free c (d : ascii) ts : c <> d -> Forall (free_of [d]) ts -> free_of [d] (join [c] ts).
Proof.
  intros N F x Hx [->|[]]. destruct ts as [|t ts]; simpl in Hx; auto. inversion F as [|? ? Ft Fts]; subst.
  apply in_app_or in Hx as [Hx|Hx]; [apply (Ft x); simpl; auto|].
  apply in_concat in Hx as (u & Hu & Hx). apply in_map_iff in Hu as (w & <- & Hw). destruct Hx as [Hx|Hx]; [congruence|].
  rewrite Forall_forall in Fts. apply (Fts w Hw x Hx). simpl; auto.
Qed.

Lemma table_inj c rows rows' : c <> newline -> rows <> [] -> rows' <> [] ->
  Forall (fun r => r <> []) rows -> Forall (fun r => r <> []) rows' ->
  Forall (Forall (free_of [c; newline])) rows -> Forall (Forall (free_of [c; newline])) rows' ->
  table c rows = table c rows' -> rows = rows'.
Proof.
  intros Nc N N' R R' F F' E. unfold table in E.
  assert (X : map (join [c]) rows = map (join [c]) rows').
  { apply (join_inj newline); auto.
    - intros Y. apply map_eq_nil in Y. auto.
    - intros Y. apply map_eq_nil in Y. auto.
    - apply Forall_forall. intros t Ht. apply in_map_iff in Ht as (r & <- & Hr). apply join_free; auto.
      rewrite Forall_forall in F. pose proof (F r Hr) as Fr. rewrite Forall_forall in *. intros t Ht x Hx Hd. apply (Fr t Ht x Hx). simpl in *. tauto.
    - apply Forall_forall. intros t Ht. apply in_map_iff in Ht as (r & <- & Hr). apply join_free; auto.
      rewrite Forall_forall in F'. pose proof (F' r Hr) as Fr. rewrite Forall_forall in *. intros t Ht x Hx Hd. apply (Fr t Ht x Hx). simpl in *. tauto. }
  clear E N N'. revert rows' X R' F'. induction rows as [|r rows IH]; intros [|r' rows'] X R' F'; try discriminate; auto.
  injection X as X1 X2. inversion R as [|? ? Rr Rs]; inversion R' as [|? ? Rr' Rs']; inversion F as [|? ? Fr Fs]; inversion F' as [|? ? Fr' Fs']; subst.
  f_equal; [|apply IH; auto].
  apply (join_inj c); auto.
  - eapply Forall_impl; [|exact Fr]. intros t Ht x Hx Hd. apply (Ht x Hx). simpl in *. tauto.
  - eapply Forall_impl; [|exact Fr']. intros t Ht x Hx Hd. apply (Ht x Hx). simpl in *. tauto.
Qed.

(** The rows of a matrix of texts. *)
Definition rows_of (r c : Z) (f : list Z -> text) : list (list text) :=
  map (fun i => map (fun j => f [i; j]) (iota c)) (iota r).

Lemma nested_table ch r c f : nested (sep_fmts ch) [r; c] f = table ch (rows_of r c f).
Proof.
  unfold table, rows_of, sep_fmts. cbn [nested before separator after]. rewrite !app_nil_r. cbn [app]. f_equal.
  rewrite map_map. apply map_ext. intros i. rewrite app_nil_r. reflexivity.
Qed.

(** ** The setter *)
Lemma upd_nat_len {A} (l : list A) i v : length (upd_nat l i v) = length l.
Proof. revert i. induction l; intros [|i]; simpl; auto. Qed.
Lemma upd_nth {A} (l : list A) i j v d : (i < length l)%nat -> nth j (upd_nat l i v) d = if (j =? i)%nat then v else nth j l d.
Proof.
  revert i j. induction l as [|a l IH]; intros [|i] [|j] H; simpl in *; try lia; auto. apply IH. lia.
Qed.

Lemma set_dim_length fmts k f : length (set_dim_fmt fmts k f) = Nat.max (length fmts) (S k).
Proof.
  unfold set_dim_fmt. destruct (Nat.ltb_spec (length fmts) k).
  - assert (X : (length (fmts ++ repeat default_fmt (k - length fmts)) =? k)%nat = true).
    { apply Nat.eqb_eq. rewrite app_length, repeat_length. lia. }
    rewrite X, !app_length, repeat_length. simpl. lia.
  - destruct (Nat.eqb_spec (length fmts) k); [rewrite app_length; simpl; lia|rewrite upd_nat_len; lia].
Qed.

Lemma set_dim_nth fmts k f j : nth j (set_dim_fmt fmts k f) default_fmt = if (j =? k)%nat then f else nth j fmts default_fmt.
Proof.
  unfold set_dim_fmt. destruct (Nat.ltb_spec (length fmts) k).
  - assert (X : (length (fmts ++ repeat default_fmt (k - length fmts)) =? k)%nat = true).
    { apply Nat.eqb_eq. rewrite app_length, repeat_length. lia. }
    rewrite X. destruct (Nat.eqb_spec j k).
    + subst. rewrite app_nth2; rewrite app_length, repeat_length; [|lia]. replace (k - _)%nat with 0%nat by lia. reflexivity.
    + destruct (Nat.lt_ge_cases j k).
      * rewrite app_nth1 by (rewrite app_length, repeat_length; lia). destruct (Nat.lt_ge_cases j (length fmts)).
        -- rewrite app_nth1; auto.
        -- rewrite app_nth2 by lia. rewrite (nth_overflow fmts) by lia. apply nth_repeat.
      * rewrite nth_overflow by (rewrite !app_length, repeat_length; simpl; lia). rewrite nth_overflow by lia. reflexivity.
  - destruct (Nat.eqb_spec (length fmts) k).
    + destruct (Nat.eqb_spec j k).
      * subst. rewrite app_nth2 by lia. rewrite Nat.sub_diag. reflexivity.
      * destruct (Nat.lt_ge_cases j k); [rewrite app_nth1 by lia; auto|].
        rewrite !nth_overflow; auto; [|rewrite app_length; simpl]; lia.
    + apply upd_nth. lia.
Qed.
