(** * PropBounded: bounded slices through [operator[]] on any view (C10), iteration over a view with an empty dimension (C03). *)

From Coq Require Import ZArith List Bool Lia.
From Verif Require Import Base Spec Desc Slice SliceSpec Lemmas DescProofs SliceProofs ViewProofs RunProofs ViewThms PropView EmptySlice EmptyThms.
Import ListNotations.
Open Scope Z_scope.

(** What [slice(s, at_most(m))] keeps of a dimension of extent [e], and where its index [k] lies. *)
Fixpoint clamped (sms : list (Z * Z)) (shape : list Z) : list Z :=
  match sms, shape with (s, m) :: sms', e :: shape' => Z.min m (e - s) :: clamped sms' shape' | _, _ => [] end.
Fixpoint shifted (sms : list (Z * Z)) (ix : list Z) : list Z :=
  match sms, ix with (s, _) :: sms', k :: ix' => (s + k) :: shifted sms' ix' | _, _ => [] end.

Lemma sel_bound s m e : 0 <= s < e -> Z.of_nat (length (sel (UBound s m) e)) = Z.max 0 (Z.min m (e - s)).
Proof.
  intros H. cbn [sel]. replace (map (fun k => s + k) (iota m)) with (map (fun k => s + k * 1) (iota m)) by (apply map_ext; intros; lia).
  rewrite filter_map_below by lia. rewrite map_length, iota_length. rewrite Z.div_1_r. lia.
Qed.

(** [a[slice(s0, at_most(m0))][slice(s1, at_most(m1))]...] on any view made by any history: in dimension j it keeps min(mj, ej - sj) indices, each bounded
    by the extent of its own dimension, and its element at ix is the element of the view at (s0 + ix0, s1 + ix1, ...). *)
Theorem bounded_slices_of_views : forall chk es steps sms shape ps, good_shape es -> ok_steps (afull es) steps ->
  aselects (afull es) steps = (shape, ps) -> Forall2 (fun sm e => 0 <= fst sm < e /\ 0 < snd sm) sms shape ->
  exists fuel0, forall fuel, (fuel0 <= fuel)%nat -> exists s s' ps',
    foldO (run chk fuel) steps (SRef 0 es) = Ok s /\ dims s = Some shape /\ positions fuel s = Ok ps /\
    run chk fuel s (map (fun sm => UBound (fst sm) (snd sm)) sms) = Ok s' /\ dims s' = Some (clamped sms shape) /\ positions fuel s' = Ok ps' /\
    (forall ix, in_range (clamped sms shape) ix ->
       in_range shape (shifted sms ix) /\ nth (Z.to_nat (cm_pos (clamped sms shape) ix)) ps' 0 = nth (Z.to_nat (cm_pos shape (shifted sms ix))) ps 0).
Proof.
  intros chk es steps sms shape ps Hg Hok Hv Hsm.
  set (us := map (fun sm => UBound (fst sm) (snd sm)) sms).
  assert (Hgood : good_shape shape).
  { destruct (history_ok chk es steps Hg Hok) as (f0 & H). destruct (H f0 (le_n _)) as (s & _ & I & _). apply sinv_good in I as [I _]. rewrite Hv in I. exact I. }
  assert (Hoka : Forall2 ok_arg us shape). { unfold us. clear -Hsm. induction Hsm; simpl; constructor; auto. }
  assert (Hrs : result_shape us shape = clamped sms shape).
  { unfold us. clear -Hsm. assert (A : map (fun s => Z.of_nat (length s)) (sels (map (fun sm => UBound (fst sm) (snd sm)) sms) shape) = clamped sms shape).
    { induction Hsm as [|[s m] e sms shape H Hsm IH]; auto. cbn [map sels clamped fst snd]. rewrite IH. f_equal.
      cbn [fst snd] in H. rewrite sel_bound by lia. lia. }
    rewrite <- A. destruct sms; reflexivity. }
  assert (Hz : zprod (clamped sms shape) <= zprod shape /\ 0 < zprod (clamped sms shape)).
  { clear -Hsm Hgood. destruct Hgood as (_ & Hp & _). induction Hsm as [|[s m] e sms shape H Hsm IH]; [cbn [clamped]; change (zprod []) with 1; lia|].
    inv Hp. cbn [fst snd clamped] in *. change (zprod (e :: shape)) with (e * zprod shape).
    change (zprod (Z.min m (e - s) :: clamped sms shape)) with (Z.min m (e - s) * zprod (clamped sms shape)).
    pose proof (zprod_pos _ H3). specialize (IH H3). destruct H as [Ha Hb].
    assert (0 < Z.min m (e - s) <= e) by lia.
    split; [apply Z.mul_le_mono_nonneg; lia|apply Z.mul_pos_pos; lia]. }
  assert (Hstep : ok_steps (afull es) (steps ++ [us])).
  { rewrite ok_steps_snoc, Hv. split; auto. split.
    - split; auto. split; [|cbn [fst]; rewrite Hrs; destruct Hgood as (_ & _ & HM); lia].
      unfold us. destruct sms; [|reflexivity]. inversion Hsm; subst. destruct Hgood as (C & _). congruence.
    - unfold us. destruct sms as [|p l]; [reflexivity|]. cbn [map loses]. clear. induction l as [|x l IH]; [reflexivity|]. destruct l; [reflexivity|exact IH]. }
  assert (Hc : exists u us', us = u :: us' /\ is_index u = false).
  { unfold us. destruct sms; [|simpl; eauto]. inversion Hsm; subst. destruct Hgood as (C & _). congruence. }
  destruct Hc as (u & us' & Hc & Hui).
  destruct (slice_elements chk es steps u us') as (f0 & H); auto; [rewrite <- Hc; auto|]. rewrite <- Hc in H.
  assert (Hsh : forall ix, src_index us ix = shifted sms ix).
  { unfold us. clear. induction sms as [|[s m] sms IH]; intros [|k ix]; simpl; auto. f_equal. auto. }
  clearbody us.
  destruct (slice_selects_requested chk es steps us) as (f1 & H').
  { auto. } { auto. }
  exists (Nat.max f0 f1). intros fuel Hf. destruct (H fuel ltac:(lia)) as (s & shape1 & ps1 & s' & shape' & ps' & A1 & A2 & A3 & A4 & A5 & A6 & A7 & A8).
  destruct (H' fuel ltac:(lia)) as (s2 & shape2 & ps2 & s2' & B1 & B2 & B3 & B4 & B5 & _ & _ & _ & B9).
  assert (s2 = s) by congruence. subst s2. assert (shape2 = shape) by congruence. subst shape2. assert (ps2 = ps) by congruence. subst ps2.
  assert (shape1 = shape) by congruence. subst shape1. assert (ps1 = ps) by congruence. subst ps1.
  assert (s2' = s') by congruence. subst s2'. assert (shape' = clamped sms shape) by congruence. subst shape'.
  exists s, s', ps'. split; auto. split; auto. split; auto. split; auto. split; auto. split; auto.
  intros ix Hix. destruct (A8 ix Hix) as [C1 C2].
  rewrite Hsh in C1, C2. auto.
Qed.
Print Assumptions bounded_slices_of_views.

(** Extents 4 and 3 of a strided view of a 5 x 6 array; the second bound is cut by 3, not by 4. *)
Example bounded_slices_of_views_ex :
  ok_steps (afull [5; 6]) [[USlice 1 4; UStrided 0 3 2]] /\ fst (aselects (afull [5; 6]) [[USlice 1 4; UStrided 0 3 2]]) = [4; 3] /\
  Forall2 (fun sm e => 0 <= fst sm < e /\ 0 < snd sm) [(1, 2); (1, 10)] [4; 3] /\ clamped [(1, 2); (1, 10)] [4; 3] = [2; 2] /\
  (let* s := run true 100 (SRef 0 [5; 6]) [USlice 1 4; UStrided 0 3 2] in let* s' := run true 100 s [UBound 1 2; UBound 1 10] in
   let* p := positions 100 s' in Ok (dims s', p)) = Ok (Some [2; 2], [12; 13; 22; 23]).
Proof.
  split. { ok_tac. } split; [reflexivity|]. split; [|split; reflexivity]. repeat constructor; simpl; lia.
Qed.

(** Iterating over a strided view with an empty dimension visits nothing if the last extent is 0 and divides by zero otherwise. *)
Theorem zero_extent_iteration_exact : forall d, sd_exts d <> [] -> all_nonneg (sd_exts d) -> In 0 (sd_exts d) ->
  length (sd_strs d) = length (sd_exts d) -> 0 <= sd_start d < W ->
  (last (sd_exts d) 1 = 0 -> forall fuel, sd_walk (S fuel) d = Ok []) /\
  (last (sd_exts d) 1 <> 0 -> forall f g, sd_exts d = f ++ 0 :: g -> ~ In 0 f -> zprod f <= MAXSZ ->
     forall fuel, (Z.to_nat (zprod f) < fuel)%nat -> sd_walk fuel d = UB).
Proof.
  intros d Hne Hnn H0 Hl Hs. split.
  - intros Hlast fuel. apply walk_last_empty; auto. lia.
  - intros Hlast f g Hfg Hf HM fuel Hfu.
    assert (Hg : g <> []). { intros ->. rewrite Hfg, last_last in Hlast. congruence. }
    rewrite Hfg, last_snoc_neq in Hlast by auto.
    apply (walk_middle_empty d f g); auto. unfold all_nonneg in Hnn. rewrite Hfg in Hnn. apply Forall_app in Hnn as [Hnn _].
    apply Forall_forall. intros x Hx. rewrite Forall_forall in Hnn. specialize (Hnn x Hx). destruct (Z.eq_dec x 0); [subst; tauto|lia].
Qed.
Print Assumptions zero_extent_iteration_exact.

Example zero_extent_iteration_exact_ex : sd_walk 1 (SD 3 [2; 0] [1; 5]) = Ok [] /\ sd_walk 7 (SD 3 [2; 3; 0; 4] [1; 2; 6; 6]) = UB /\
  sd_walk 5 (SD 3 [2; 3; 0; 4] [1; 2; 6; 6]) = Timeout.
Proof. repeat split. Qed.
