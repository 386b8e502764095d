(** * PropEmpty: C52, slices that select nothing. *)

From Coq Require Import ZArith List Bool Lia.
From Verif Require Import Base Spec Desc Slice SliceSpec Lemmas DescProofs ViewProofs RunProofs ViewThms EmptySpec EmptyProofs EmptySlice EmptyThms.
Import ListNotations.
Open Scope Z_scope.

(** Checked builds: on any view made by any history, a chain with at least one empty subscript is rejected, except for the
    shortcuts of contiguous arrays ([empty_contiguous_slice]) and an empty index range where a single dimension is left ([empty_index_range]). *)
Theorem empty_slice_rejected : forall es steps us, good_shape es -> ok_steps (afull es) steps ->
  empty_request us (fst (aselects (afull es) steps)) -> loses true us = false ->
  exists fuel0, forall fuel, (fuel0 <= fuel)%nat -> exists s,
    foldO (run true fuel) steps (SRef 0 es) = Ok s /\
    ((forall off es', s = SRef off es' -> contiguous_shortcut us = false) ->
     (length (result_shape us (fst (aselects (afull es) steps))) = 1%nat -> has_range us = false) ->
     run true fuel s us = Abort).
Proof.
  intros es steps us Hg Hok [Hw Hno] Het. destruct (history_ok true es steps Hg Hok) as (f0 & H). exists f0. intros fuel Hf.
  destruct (H fuel Hf) as (s & E & I & Hv). exists s. split; auto. intros Hcs H1.
  destruct (comes_down_any true fuel s _ us I Hw Hno Het Hcs Hv) as (off & m & es' & ps & rs & X1 & X2 & X3 & X4 & X5 & X6 & X7 & X8).
  rewrite X2, (array_slice_empty_abort fuel m es' ps rs); auto. intros HL. rewrite X6. apply H1.
  rewrite <- X5, map_length, (Forall2_len _ _ _ X3). auto.
Qed.
Print Assumptions empty_slice_rejected.

Ltac f2 := intros C; repeat match goal with H : Forall2 _ (_ :: _) _ |- _ => inversion H; subst; clear H end; simpl in *; first [lia | tauto].

(** A 2 x 2 strided view of a 4 x 5 array, empty in its second dimension; and an empty index range. *)
Example empty_slice_rejected_ex :
  ok_steps (afull [4; 5]) [[UStrided 0 2 3; UBound 1 2]] /\
  empty_request [UEvery; USlice 1 0] (fst (aselects (afull [4; 5]) [[UStrided 0 2 3; UBound 1 2]])) /\
  empty_request [UEvery; URange []] (fst (aselects (afull [4; 5]) [[UStrided 0 2 3; UBound 1 2]])) /\
  (let* s := run true 100 (SRef 0 [4; 5]) [UStrided 0 2 3; UBound 1 2] in run true 100 s [UEvery; USlice 1 0]) = Abort /\
  (let* s := run true 100 (SRef 0 [4; 5]) [UStrided 0 2 3; UBound 1 2] in run true 100 s [UEvery; URange []]) = Abort.
Proof.
  split. { vm_compute. repeat (split || constructor); try discriminate; try reflexivity; auto. }
  assert (E : fst (aselects (afull [4; 5]) [[UStrided 0 2 3; UBound 1 2]]) = [2; 2]) by reflexivity. rewrite E.
  split. { split. { constructor; [left; exact I|]. constructor; [right; simpl; repeat split; lia || reflexivity|constructor]. }
    f2. }
  split. { split. { constructor; [left; exact I|]. constructor; [right; simpl; auto|constructor]. }
    f2. }
  split; reflexivity.
Qed.

(** The shortcuts on contiguous arrays, here seen from any contiguous array (f, l) at any offset: every...every, slice(s, 0) in the last
    dimension, and in one dimension slice(s, at_most(m)) with nothing left.  The check accepts exactly 1 <= s <= l, so the empty slice at the start
    is rejected; what is accepted has last extent 0 and no element.  Without checks everything is accepted. *)
Theorem empty_contiguous_slice : forall fuel off f l s, good_shape (f ++ [l]) -> 0 <= s < W ->
  (1 <= s <= l -> exists o, run true fuel (SRef off (f ++ [l])) (map (fun _ => UEvery) f ++ [USlice s 0]) = Ok (SRef o (f ++ [0])) /\
     dims (SRef o (f ++ [0])) = Some (f ++ [0]) /\ positions fuel (SRef o (f ++ [0])) = Ok []) /\
  (~ (1 <= s <= l) -> run true fuel (SRef off (f ++ [l])) (map (fun _ => UEvery) f ++ [USlice s 0]) = Abort) /\
  (exists o, run false fuel (SRef off (f ++ [l])) (map (fun _ => UEvery) f ++ [USlice s 0]) = Ok (SRef o (f ++ [0])) /\
     positions fuel (SRef o (f ++ [0])) = Ok []) /\
  (forall chk m, f = [] -> 0 <= m -> l <= s \/ m = 0 -> run chk fuel (SRef off [l]) [UBound s m] = run chk fuel (SRef off [l]) [USlice s 0]).
Proof.
  intros fuel off f l s Hg Hs.
  destruct (run_ref_empty_slice true fuel off f l s Hs Hg) as (o & E).
  destruct (run_ref_empty_slice false fuel off f l s Hs Hg) as (o' & E').
  split; [|split; [|split]].
  - intros H. exists o. rewrite E. replace ((1 <=? s) && (s <=? l)) with true by (symmetry; apply andb_true_iff; lia).
    cbn [andb negb]. split; auto. split; auto. apply prod_zero_positions.
  - intros H. rewrite E. replace ((1 <=? s) && (s <=? l)) with false by (symmetry; apply andb_false_iff; lia). auto.
  - exists o'. rewrite E'. cbn [andb]. split; auto. apply prod_zero_positions.
  - intros chk m -> Hm H. destruct Hg as (_ & Hp & HM). simpl in Hp, HM. inversion Hp; subst.
    apply ref_bound_empty; auto. change (zprod [l]) with (l * 1) in HM. lia.
Qed.
Print Assumptions empty_contiguous_slice.

Example empty_contiguous_slice_ex : good_shape ([2] ++ [3]) /\
  run true 10 (SRef 0 [2; 3]) [UEvery; USlice 1 0] = Ok (SRef 2 [2; 0]) /\ run true 10 (SRef 0 [2; 3]) [UEvery; USlice 0 0] = Abort /\
  run true 10 (SRef 0 [3]) [UBound 3 5] = Ok (SRef 3 [0]) /\ run true 10 (SRef 0 [3]) [UBound 4 5] = Abort.
Proof. repeat split; try discriminate; try reflexivity; repeat constructor. Qed.

(** An empty index range where a single dimension is left is accepted in every build: no element. *)
Theorem empty_index_range : forall chk es steps us, good_shape es -> ok_steps (afull es) steps ->
  empty_request us (fst (aselects (afull es) steps)) -> length (result_shape us (fst (aselects (afull es) steps))) = 1%nat -> has_range us = true ->
  loses true us = false ->
  exists fuel0, forall fuel, (fuel0 <= fuel)%nat -> exists s s',
    foldO (run chk fuel) steps (SRef 0 es) = Ok s /\ run chk fuel s us = Ok s' /\ dims s' = Some [0] /\ positions fuel s' = Ok [].
Proof.
  intros chk es steps us Hg Hok [Hw Hno] H1 Hr Het. destruct (history_ok chk es steps Hg Hok) as (f0 & H). exists f0. intros fuel Hf.
  destruct (H fuel Hf) as (s & E & I & Hv).
  assert (D : (exists off e, s = SRef off [e] /\ us = [URange []]) \/ (forall off es', s = SRef off es' -> contiguous_shortcut us = false)).
  { set (v := aselects (afull es) steps) in *. destruct s; simpl in I; try tauto; try (right; intros; discriminate).
    destruct (contiguous_shortcut us) eqn:Ec; [|right; auto]. left.
    destruct I as (Ev & Hgs & _). rewrite Ev in *.
    assert (Hr2 : every_then_slice us = true -> has_range us = false).
    { clear. unfold has_range. induction us as [|u us IH]; simpl; [discriminate|]. destruct u; try discriminate.
      - destruct us; [reflexivity|discriminate]. - exact IH. }
    destruct us as [|u us]; [discriminate|]. destruct us as [|u2 us].
    - destruct u; try discriminate. apply Forall2_len in Hw as Hl. destruct es0 as [|e [|]]; try discriminate.
      exists off, e. split; auto. inversion Hw; subst. destruct H4 as [H4|H4]; [exfalso; apply Hno; constructor; auto|]. simpl in H4. subst. auto.
    - exfalso. cbn [contiguous_shortcut] in Ec. assert (Q : every_then_slice (u :: u2 :: us) = true) by (destruct u; auto; try discriminate).
      rewrite (Hr2 Q) in Hr. discriminate. }
  destruct D as [(off & e & -> & ->)|Hcs].
  - exists (SRef off [e]), (SView off (MVec (SD 0 [0] [1]) [])). split; auto. split; [|split; reflexivity].
    simpl in I. destruct I as (Ev & (_ & Hp & _) & _). inversion Hp; subst.
    unfold run. cbn [foldO op_index ref_index length Nat.eqb hd]. change (max_idx []) with 0. rewrite dassert_ok by lia.
    cbn. destruct chk; reflexivity.
  - destruct (comes_down_any chk fuel s _ us I Hw Hno Het Hcs Hv) as (off & m & es' & ps & rs & X1 & X2 & X3 & X4 & X5 & X6 & X7 & X8).
    exists s, (SView off (MVec (SD 0 [0] [1]) [])). split; auto. split; [|split; reflexivity].
    rewrite X2. assert (L : length rs = 1%nat) by (rewrite <- H1, <- X5, map_length; auto).
    destruct rs as [|r [|]]; try discriminate. pose proof (Forall2_len _ _ _ X3) as L2. destruct es' as [|e [|]]; try discriminate.
    rewrite Hr in X6. destruct r as [| |l]; try discriminate. destruct l; [|discriminate].
    rewrite (array_slice_range_1 chk fuel m e ps X1). reflexivity.
Qed.
Print Assumptions empty_index_range.

Example empty_index_range_ex : empty_request [UIdx 1; URange []] (fst (aselects (afull [2; 3]) [])) /\
  length (result_shape [UIdx 1; URange []] (fst (aselects (afull [2; 3]) []))) = 1%nat /\ has_range [UIdx 1; URange []] = true /\
  (let* s := run true 10 (SRef 0 [2; 3]) [UIdx 1; URange []] in let* p := positions 10 s in Ok (dims s, p)) = Ok (Some [0], []).
Proof.
  split; [|repeat split].
  split. { constructor; [left; simpl; lia|]. constructor; [right; simpl; auto|constructor]. }
  f2.
Qed.

(** Unchecked builds, no index range in the chain.  On a contiguous array or a strided view the result has the requested extents; iterating over
    it visits nothing if it is contiguous or its last extent is 0, and is undefined (a division by zero) otherwise.  On a view made with an index range the
    subscripting itself iterates: it is undefined unless the last extent is 0. *)
Theorem empty_slice_unchecked : forall es steps us shape ps, good_shape es -> ok_steps (afull es) steps ->
  aselects (afull es) steps = (shape, ps) -> empty_request us shape -> has_range us = false -> loses true us = false ->
  exists fuel0, forall fuel, (fuel0 <= fuel)%nat -> exists s,
    foldO (run false fuel) steps (SRef 0 es) = Ok s /\
    ((forall off d idx, s <> SView off (MVec d idx)) -> exists s',
       run false fuel s us = Ok s' /\ dims s' = Some (result_shape us shape) /\
       ((exists off es', s' = SRef off es') \/ last (result_shape us shape) 1 = 0 -> positions fuel s' = Ok []) /\
       ((forall off es', s' <> SRef off es') -> last (result_shape us shape) 1 <> 0 -> positions fuel s' = UB)) /\
    ((exists off d idx, s = SView off (MVec d idx)) ->
       (last (result_shape us shape) 1 = 0 -> exists s', run false fuel s us = Ok s' /\ dims s' = Some (result_shape us shape) /\ positions fuel s' = Ok []) /\
       (last (result_shape us shape) 1 <> 0 -> run false fuel s us = UB)).
Proof.
  intros es steps us shape ps Hg Hok Hv0 [Hw Hno] Hr Het. destruct (history_ok false es steps Hg Hok) as (f0 & H). exists f0. intros fuel Hf.
  destruct (H fuel Hf) as (s & E & I & Hv). exists s. split; auto. rewrite Hv0 in *. cbn [fst] in *.
  destruct (match s with SRef _ _ => contiguous_shortcut us | _ => false end) eqn:Ecs.
  - destruct s; try discriminate. simpl in I. destruct I as (Ev & Hgs & _). subst es0.
    split; [|intros (? & ? & ? & C); discriminate]. intros _.
    assert (Hts : every_then_slice us = true \/ exists l s m, us = [UBound s m] /\ shape = [l]).
    { destruct us as [|u us]; [discriminate|]. destruct us as [|u2 us].
      - destruct u; auto; try discriminate. right. pose proof (Forall2_len _ _ _ Hw) as Hl. destruct shape as [|l [|]]; try discriminate. eauto.
      - left. destruct u; auto; discriminate. }
    assert (Hrun : exists f l s0, shape = f ++ [l] /\ result_shape us shape = f ++ [0] /\ 0 <= s0 < W /\
       run false fuel (SRef off shape) us = run false fuel (SRef off shape) (map (fun _ => UEvery) f ++ [USlice s0 0])).
    { destruct Hts as [Hts|(l & s0 & m & -> & ->)].
      - destruct (every_then_slice_form us shape Hts Hw Hno) as (f & l & s0 & -> & -> & Hs). exists f, l, s0. split; auto. split; auto.
        apply result_shape_every. destruct Hgs as (_ & Hp & _). apply Forall_app in Hp. tauto.
      - exists [], l, s0. inversion Hw; subst. destruct H3 as [H3|H3]; [exfalso; apply Hno; constructor; auto|].
        simpl in H3. destruct H3 as (A & B & C). split; auto.
        destruct Hgs as (_ & Hp & HM). inversion Hp; subst. change (zprod [l]) with (l * 1) in HM.
        split; [|split; auto]; [|apply ref_bound_empty; auto; lia].
        destruct (resolve_weak (UBound s0 m) l) as (r & R1 & R2 & R3 & R4 & R5); [lia|right; simpl; auto|].
        cbn [result_shape sels map app]. rewrite <- R3. destruct R5 as [R5|R5].
        + exfalso. apply Hno. constructor; auto.
        + unfold rlen. rewrite (rempty_len _ R5). reflexivity. }
    destruct Hrun as (f & l & s0 & -> & Ers & Hs & Erun). rewrite Erun, Ers.
    destruct (run_ref_empty_slice false fuel off f l s0 Hs Hgs) as (o & Eo). cbn [andb] in Eo. exists (SRef o (f ++ [0])).
    split; auto. split; auto. split; [intros; apply prod_zero_positions|]. intros C. exfalso. eapply C; eauto.
  - assert (Hcs : forall off es', s = SRef off es' -> contiguous_shortcut us = false) by (intros off es' ->; auto).
    destruct (comes_down_any false fuel s (shape, ps) us I Hw Hno Het Hcs Hv) as (off & m & es' & ps' & rs & X1 & X2 & X3 & X4 & X5 & X6 & X7 & X8).
    cbn [fst] in X5. rewrite Hr in X6. pose proof X1 as (Hne' & Hp' & HM' & He' & Hm').
    assert (Hfl : (Z.to_nat (zprod es') < fuel)%nat) by (cbn [fst] in X8; lia).
    rewrite X2. unfold array_slice. rewrite X6. split.
    + intros Hnv. assert (Hid : is_vec m = false).
      { rewrite X7. destruct s; simpl; auto. destruct m0; auto. exfalso. eapply Hnv; eauto. }
      destruct m as [d|]; [|discriminate]. destruct Hm' as (Hs & Hst & _). apply strides_ok_length in Hs.
      destruct (default_empty_false fuel d es' rs) as (nd & N1 & N2 & N3 & N4); auto.
      cbn [m_desc]. rewrite N1. cbn [bindO]. exists (SView off (MId nd)). split; auto. rewrite <- X5.
      split; [cbn; congruence|]. cbn [positions m_positions]. split.
      * intros [(? & ? & C)|C]; [discriminate|]. rewrite N3; auto.
      * intros _ C. rewrite N4; auto.
    + intros (o & d0 & idx & ->). cbn in X7. destruct m as [|d idx']; [discriminate|]. destruct Hm' as (Hd & _ & _).
      destruct (default_empty_false fuel d es' rs) as (nd & N1 & N2 & N3 & N4); subst d; auto; try (cbn; lia).
      { cbn. apply infer_strides_length. } { cbn. unfold W. lia. }
      cbn [m_desc]. rewrite N1. cbn [bindO]. rewrite <- X5. split; intros C.
      * rewrite N3 by auto. cbn [bindO mapO]. destruct (mk_vec_false (sd_exts nd) []) as (dd & M1 & M2). rewrite M1. cbn [bindO].
        eexists. split; [reflexivity|]. split; [cbn; congruence|]. reflexivity.
      * rewrite N4 by auto. reflexivity.
Qed.
Print Assumptions empty_slice_unchecked.

(** A 2 x 2 strided view, then: last dimension empty (visits nothing), first dimension empty (iteration divides by zero); on a view made with an index range
    the latter is already undefined. *)
Example empty_slice_unchecked_ex :
  (let* s := run false 100 (SRef 0 [4; 5]) [UStrided 0 2 3; UBound 1 2] in let* s' := run false 100 s [UEvery; USlice 1 0] in
   let* p := positions 100 s' in Ok (dims s', p)) = Ok (Some [2; 0], []) /\
  (let* s := run false 100 (SRef 0 [4; 5]) [UStrided 0 2 3; UBound 1 2] in let* s' := run false 100 s [USlice 1 0; UEvery] in Ok (dims s', positions 100 s'))
    = Ok (Some [0; 2], UB) /\
  (let* s := run false 100 (SRef 0 [4; 5]) [URange [0; 3]; UBound 1 2] in run false 100 s [USlice 1 0; UEvery]) = UB /\
  empty_request [USlice 1 0; UEvery] [2; 2] /\ has_range [USlice 1 0; UEvery] = false.
Proof.
  repeat split; try reflexivity. 2: f2.
  constructor; [right; simpl; repeat split; lia || reflexivity|]. constructor; [left; exact I|constructor].
Qed.

(** Unchecked builds, index range in the chain: no element is visited, but the extents are not the requested ones: they are 0 up to the last empty
    dimension, whatever was requested there, and as requested after it. *)
Theorem empty_range_unchecked : forall es steps us shape ps front back, good_shape es -> ok_steps (afull es) steps ->
  aselects (afull es) steps = (shape, ps) -> empty_request us shape -> has_range us = true -> loses true us = false ->
  result_shape us shape = front ++ 0 :: back -> ~ In 0 back ->
  exists fuel0, forall fuel, (fuel0 <= fuel)%nat -> exists s s',
    foldO (run false fuel) steps (SRef 0 es) = Ok s /\ run false fuel s us = Ok s' /\
    dims s' = Some (map (fun _ => 0) front ++ 0 :: back) /\ positions fuel s' = Ok [].
Proof.
  intros es steps us shape ps front back Hg Hok Hv0 Hreq Hr Het Hfb Hb0.
  destruct (Nat.eq_dec (length (result_shape us shape)) 1) as [H1|H1].
  - destruct (empty_index_range false es steps us) as (f0 & H); rewrite ?Hv0; auto.
    exists f0. intros fuel Hf. destruct (H fuel Hf) as (s & s' & A & B & C & D). exists s, s'. split; auto. split; auto. split; auto.
    rewrite C. rewrite Hfb in H1. rewrite app_length in H1. cbn [length] in H1. destruct front; [|simpl in H1; lia]. destruct back; [|simpl in H1; lia]. reflexivity.
  - destruct Hreq as [Hw Hno]. destruct (history_ok false es steps Hg Hok) as (f0 & H). exists f0. intros fuel Hf.
    destruct (H fuel Hf) as (s & E & I & Hv). rewrite Hv0 in *. cbn [fst] in *.
    assert (Hcs : forall off es', s = SRef off es' -> contiguous_shortcut us = false).
    { intros off es' ->. destruct us as [|u us]; [reflexivity|].
      assert (Hts : every_then_slice (u :: us) = false).
      { destruct (every_then_slice (u :: us)) eqn:Q; auto. exfalso.
        assert (Hr2 : forall us, every_then_slice us = true -> has_range us = false).
        { clear. unfold has_range. induction us as [|u us IH]; simpl; [discriminate|]. destruct u; try discriminate.
          - destruct us; [reflexivity|discriminate]. - exact IH. }
        rewrite (Hr2 _ Q) in Hr. discriminate. }
      destruct us as [|u2 us]; [|destruct u; auto].
      pose proof (Forall2_len _ _ _ Hw) as L. destruct shape as [|e [|]]; try discriminate.
      exfalso. destruct u; try discriminate. apply H1. reflexivity. }
    destruct (comes_down_any false fuel s (shape, ps) us I Hw Hno Het Hcs Hv) as (off & m & es' & ps' & rs & X1 & X2 & X3 & X4 & X5 & X6 & X7 & X8).
    cbn [fst] in X5. rewrite Hr in X6. destruct (last_empty _ X4) as (fr & a & bk & -> & Ha & Hb).
    destruct (array_slice_range_false fuel m es' ps' fr a bk X1 X3 Ha Hb X6) as (d & D1 & D2).
    exists s, (SView off (MVec d [])). split; auto. rewrite X2, D1. cbn [bindO]. split; auto. split; [|reflexivity].
    cbn [dims m_desc]. rewrite D2. rewrite map_app in X5. cbn [map] in X5.
    assert (Ra : rlen a = 0) by (unfold rlen; rewrite (rempty_len _ Ha); auto). rewrite Ra, Hfb in X5.
    destruct (split_last_zero (map rlen fr) (map rlen bk) front back X5) as [<- <-]; auto.
    + apply Forall2_app_inv_l in X3 as (l1 & l2 & _ & B2 & _). inversion B2; subst. eapply rlen_zero; eauto.
    + rewrite map_map. reflexivity.
Qed.
Print Assumptions empty_range_unchecked.

(** Requested 2 x 0 x 3, obtained 0 x 0 x 3. *)
Example empty_range_unchecked_ex :
  result_shape [UEvery; URange []; URange [0; 1; 1]] [2; 3; 2] = [2] ++ 0 :: [3] /\
  (let* s := run false 100 (SRef 0 [2; 3; 2]) [UEvery; URange []; URange [0; 1; 1]] in let* p := positions 100 s in Ok (dims s, p))
  = Ok (Some [0; 0; 3], []).
Proof. split; reflexivity. Qed.
