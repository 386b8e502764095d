(** * ViewThms4: composition side conditions, drop_to<0>, axis iterators, iteration length. *)

From Coq Require Import ZArith List Bool Lia.
From Verif Require Import Base Spec Desc Slice SliceSpec Lemmas DescProofs SliceProofs ViewProofs RunProofs ViewThms ViewThms2 ViewThms3.
Import ListNotations.
Open Scope Z_scope.

(** ** C05: the composed slicing is valid as soon as its stride is not longer than the dimension. *)
Lemma compose_arg_ok s1 n1 t1 s2 n2 t2 e : ok_arg (UStrided s1 n1 t1) e -> ok_arg (UStrided s2 n2 t2) n1 ->
  t1 * t2 <= e -> ok_arg (strided (compose (s1, n1, t1) (s2, n2, t2))) e.
Proof.
  simpl. intros (H1 & H2 & H3 & H4) (H5 & H6 & H7 & H8) H9. repeat split; try nia.
Qed.

Lemma result_shape_strided ps es : length ps = length es -> Forall (fun p => 0 <= snd (fst p)) ps ->
  result_shape (map strided ps) es = map (fun p => snd (fst p)) ps.
Proof.
  intros Hl Hp. revert es Hl. destruct ps as [|[[s n] t] ps]; intros [|e es] Hl; try discriminate; [reflexivity|].
  assert (H : forall qs es', length qs = length es' -> Forall (fun p => 0 <= snd (fst p)) qs ->
     map (fun s => Z.of_nat (length s)) (sels (map strided qs) es') = map (fun p => snd (fst p)) qs).
  { induction qs as [|[[s' n'] t'] qs IH]; intros [|e' es'] Hl' Hq; try discriminate; [reflexivity|].
    inv Hq. cbn [map strided sels sel fst snd] in *. f_equal.
    - rewrite map_length, iota_length. lia.
    - apply IH; auto. }
  apply (H ((s, n, t) :: ps) (e :: es)); auto.
Qed.

Lemma compose_all_ok ps qs es : Forall2 ok_arg (map strided ps) es ->
  Forall2 ok_arg (map strided qs) (map (fun p => snd (fst p)) ps) ->
  Forall2 (fun p e => snd p <= e) (compose_all ps qs) es ->
  Forall2 ok_arg (map strided (compose_all ps qs)) es.
Proof.
  revert qs es. induction ps as [|[[s1 n1] t1] ps IH]; intros qs es H1 H2 H3.
  - inv H1. constructor.
  - destruct qs as [|[[s2 n2] t2] qs]; [inv H2|]. inv H1. inv H2. inv H3.
    cbn [compose_all map]. constructor; [|apply IH; auto]. apply compose_arg_ok; auto.
Qed.

Lemma slices_compose' chk es steps ps qs : good_shape es ->
  ok_steps (afull es) (steps ++ [map strided ps; map strided qs]) ->
  Forall2 (fun p e => snd p <= e) (compose_all ps qs) (fst (aselects (afull es) steps)) ->
  exists fuel0, forall fuel, (fuel0 <= fuel)%nat -> exists s s1 s2 s12 shape pos,
    foldO (run chk fuel) steps (SRef 0 es) = Ok s /\
    run chk fuel s (map strided ps) = Ok s1 /\ run chk fuel s1 (map strided qs) = Ok s2 /\
    run chk fuel s (map strided (compose_all ps qs)) = Ok s12 /\
    dims s2 = Some shape /\ dims s12 = Some shape /\
    positions fuel s2 = Ok pos /\ positions fuel s12 = Ok pos.
Proof.
  intros Hg Hok Hc.
  assert (Sel : forall l shape, length l = length shape -> selects (map strided l) shape l).
  { intros l shape H. split.
    - revert shape H. induction l as [|[[s n] t] l IH]; intros [|e shape] H; try discriminate; [reflexivity|]. simpl in *. f_equal. apply IH. lia.
    - destruct l as [|[[? ?] ?] ?]; exact Logic.I. }
  assert (Lo : forall l l' : list triple, length l = length l' -> loses true (map strided l) = loses true (map strided l')).
  { assert (Mi : forall l l' : list triple, length l = length l' -> middle_lost (map strided l) = middle_lost (map strided l')).
    { induction l as [|[[? ?] ?] l IH]; intros [|[[? ?] ?] l'] H; try discriminate; [reflexivity|]. simpl in H.
      destruct l as [|[[? ?] ?] l], l' as [|[[? ?] ?] l']; try discriminate; reflexivity. }
    intros [|[[? ?] ?] l] [|[[? ?] ?] l'] H; try discriminate; [reflexivity|]. simpl in H. apply Mi. lia. }
  pose proof Hok as Hok0.
  change [map strided ps; map strided qs] with ([map strided ps] ++ [map strided qs]) in Hok.
  rewrite app_assoc in Hok. apply ok_steps_snoc in Hok as (Hok & (Ha2 & Hn2 & HM2) & Hl2).
  apply ok_steps_snoc in Hok as (Hok & (Ha1 & Hn1 & HM1) & Hl1).
  assert (Len1 := Forall2_len _ _ _ Ha1). assert (Len2 := Forall2_len _ _ _ Ha2). rewrite map_length in Len1, Len2.
  rewrite aselects_last in Ha2, Len2. rewrite aselects_last in HM2. unfold aselect in Ha2, HM2, Len2. cbn [fst] in Ha2, HM2, Len2.
  assert (Len12 : length (compose_all ps qs) = length ps).
  { rewrite result_shape_lens in Len2 by (destruct ps as [|[[? ?] ?] ?]; exact Logic.I). unfold lens in Len2.
    rewrite map_length, sels_length in Len2 by (rewrite map_length; auto). assert (Lq : length qs = length ps) by lia.
    clear -Lq. revert qs Lq. induction ps; intros [|q qs] H; try discriminate; [reflexivity|]. simpl in *. f_equal. auto. }
  assert (Ha3 : Forall2 ok_arg (map strided (compose_all ps qs)) (fst (aselects (afull es) steps))).
  { apply compose_all_ok; auto.
    rewrite result_shape_strided in Ha2; auto.
    clear -Ha1. revert Ha1. generalize (fst (aselects (afull es) steps)). induction ps as [|[[s n] t] ps IH]; intros l H; [constructor|].
    inv H. constructor; eauto. simpl in *. lia. }
  apply (slices_compose chk es steps (map strided ps) (map strided qs) (map strided (compose_all ps qs)) ps qs Hg Hok0); auto.
  - apply ok_steps_snoc. split; [auto|]. split; [|rewrite (Lo _ ps); auto]. split; [auto|]. split.
    + destruct ps as [|[[? ?] ?] ps]; [discriminate|]. destruct qs as [|[[? ?] ?] qs]; [simpl in Len12; discriminate|reflexivity].
    + assert (Pos : forall l shape, Forall2 ok_arg (map strided l) shape -> Forall (fun p => 0 <= snd (fst p)) l).
      { clear. induction l as [|[[s n] t] l IH]; intros shape H; [constructor|]. inv H. constructor; eauto. simpl in *. lia. }
      rewrite result_shape_strided; [|exact (eq_trans Len12 Len1)|exact (Pos _ _ Ha3)].
      rewrite (result_shape_strided qs) in HM2 by eauto.
      replace (map (fun p => snd (fst p)) (compose_all ps qs)) with (map (fun p : triple => snd (fst p)) qs); auto.
      assert (Lq : length qs = length ps).
      { rewrite result_shape_lens in Len2 by (destruct ps as [|[[? ?] ?] ?]; exact Logic.I). unfold lens in Len2.
        rewrite map_length, sels_length in Len2 by (rewrite map_length; auto). lia. }
      clear -Lq. revert qs Lq. induction ps as [|[[? ?] ?] ps IH]; intros [|[[? ?] ?] qs] H; try discriminate; [reflexivity|].
      simpl in *. f_equal. apply IH. lia.
  - apply Sel. rewrite aselects_last. unfold aselect. cbn [fst]. auto.
  - apply Sel. exact (eq_trans Len12 Len1).
Qed.

(** ** C03 not before *)
Lemma walk_not_before fuel d ps : sd_walk fuel d = Ok ps -> forall f, (f <= length ps)%nat -> sd_walk f d = Timeout.
Proof. apply walk_timeout. Qed.

(** ** C11, contiguous one-element arrays *)
Lemma drop_scalar_ref chk fuel off es : es <> [] -> all_pos es -> zprod es = 1 ->
  exists p, drop_to_scalar chk (SRef off es) = Ok p /\ positions fuel (SRef off es) = Ok [p].
Proof.
  intros Hne Hp H1. exists off. cbn [drop_to_scalar positions].
  rewrite prod_arr_small by (auto using all_pos_nonneg; rewrite H1; unfold W; lia). rewrite H1.
  rewrite dassert_ok by reflexivity. split; [reflexivity|]. simpl. rewrite Z.add_0_r. reflexivity.
Qed.

(** ** C13 *)
Lemma axis_laws p n : 0 <= p -> 0 <= n -> p + n < 2 ^ 63 ->
  axis_minus (axis_plus p n) n = p /\
  (forall m, 0 <= m -> p + n + m < 2 ^ 63 -> axis_plus (axis_plus p n) m = axis_plus p (n + m)) /\
  (axis_lt p (axis_plus p n) = true <-> 0 < n) /\
  axis_diff (axis_plus p n) p = - n.
Proof.
  intros Hp Hn Hs. assert (HW : 2 ^ 63 < W) by (unfold W; lia).
  unfold axis_minus, axis_plus, axis_lt, axis_diff.
  rewrite !(w64_small (p + n)) by lia. replace (p + n - n) with p by lia. rewrite (w64_small p) by lia.
  split; [reflexivity|]. split; [|split].
  - intros m Hm Hb. f_equal. lia.
  - rewrite Z.ltb_lt. lia.
  - unfold s64. rewrite !Z.mod_small by (unfold W in *; lia). lia.
Qed.
