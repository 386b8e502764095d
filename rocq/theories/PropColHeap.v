(** * PropColHeap: C49, C50 — columns and dataframes own their storage, also when memory runs out. *)

From Coq Require Import ZArith Bool Ascii List Lia.
From Verif Require Import Base Coerce Frame FrameSpec FrameProofs ColHeap ColHeapSpec ColHeapProofs ColHeapProofs2 ColHeapProofs3 ColHeapFrame ColHeapThms
  ColHeapConsist ColHeapPtr.
Import ListNotations.
Open Scope list_scope.
Open Scope nat_scope.

Definition ta : text := ["a"%char].
Definition tb : text := ["b"%char].
Definition tc : text := ["c"%char].
Definition i1 (z : Z) : list cell := [CInt z].
Definition never : nat -> bool := fun _ => false.
Definition at_op (n : nat) : nat -> bool := fun k => Nat.eqb k n.

(** ** C49: ownership *)

(** In every state of every program, whatever operations fail: no storage is referred to twice, and the storage in use is exactly what the
    variables refer to. *)
Theorem C49_owned : forall rs ex thr w, kreach rs ex thr any_step w ->
  NoDup (flat_map blocks_of (hvars w)) /\
  forall b, In b (flat_map blocks_of (hvars w)) <-> exists m, nth_error (hmem w) b = Some (Some m).
Proof.
  intros rs ex thr w H. destruct (kreach_inv _ _ _ _ _ H) as (a & HI). destruct (inv_reads _ _ HI) as (_ & H2 & H3). auto.
Qed.

(** Nothing is left when the variables are destroyed. *)
Theorem C49_no_leak : forall rs ex thr w, kreach rs ex thr any_step w ->
  Forall (fun v => v = HDead \/ v = HCol None) (hvars w) -> forall b m, nth_error (hmem w) b <> Some (Some m).
Proof.
  intros rs ex thr w H HF b m E. destruct (C49_owned _ _ _ _ H) as [_ HO].
  assert (I : In b (flat_map blocks_of (hvars w))) by (apply HO; eauto).
  apply in_flat_map in I. destruct I as (v & I1 & I2). rewrite Forall_forall in HF. destruct (HF _ I1) as [->| ->]; contradiction.
Qed.

(** Every state has values, and every command that has a meaning on these values returns or throws; it has its effect on values (with its own
    exceptions), or one of its operations fails and its exception is thrown: then it leaves what [afail] says. *)
Theorem C49_command : forall rs ex thr w, kreach rs ex thr any_step w ->
  exists a, agrees a w /\
  forall c, defined rs c a ->
  exists r w1 a1, kexec rs ex thr c w = (r, w1) /\ agrees a1 w1 /\ (r = Ok tt \/ exists e, r = Throw e) /\
    (aexec rs c a = (a1, r) \/ r = Throw ex /\ afail c a a1 /\ fails_between thr w w1).
Proof.
  intros rs ex thr w H. destruct (kreach_inv _ _ _ _ _ H) as (a & HI). exists a. split; [exact (proj1 (inv_reads _ _ HI))|].
  intros c HD. destruct (step_inv rs ex thr c a w HI HD) as (r & w1 & a1 & E1 & Hr & I1 & EX).
  exists r, w1, a1. split; [exact E1|split; [exact (proj1 (inv_reads _ _ I1))|split; [exact Hr|exact EX]]].
Qed.

(** Programs all of whose commands have a meaning (in every state they can be executed in) run without undefined behaviour. *)
Theorem C49_program : forall rs ex thr cs, meaningful rs ex cs [] ->
  exists w a, krun rs ex thr cs kinit = (Ok tt, w) /\ agrees a w /\ NoDup (flat_map blocks_of (hvars w)) /\
    forall b, In b (flat_map blocks_of (hvars w)) <-> exists m, nth_error (hmem w) b = Some (Some m).
Proof.
  intros rs ex thr cs H. destruct (krun_ok rs ex thr cs [] kinit inv_init H) as (w & a & E & HI). exists w, a.
  destruct (inv_reads _ _ HI) as (H1 & H2 & H3). auto.
Qed.

(** Strong guarantee: a command other than a bind or a copy assignment of dataframes that throws leaves every variable as it was, pointers and
    contents. *)
Theorem C49_strong : forall rs ex thr w a c e w1, kreach rs ex thr any_step w -> agrees a w -> defined rs c a ->
  match c with FBindCopy _ _ | FBindMove _ _ | FBindCol _ _ _ | FAssign _ _ _ _ => False | _ => True end ->
  kexec rs ex thr c w = (Throw e, w1) ->
  hvars w1 = hvars w /\ agrees a w1 /\ forall b, In b (flat_map blocks_of (hvars w)) -> nth_error (hmem w1) b = nth_error (hmem w) b.
Proof.
  intros rs ex thr w a c e w1 H HA HD HS Hk. destruct (C49_command _ _ _ _ H) as (a' & HA' & HC).
  assert (a = a') by (eapply agrees_inj; eauto). subst a'.
  destruct (HC c HD) as (r & w' & a1 & E1 & A1 & _ & EX). rewrite E1 in Hk. inversion Hk; subst.
  pose proof (quiet_exec rs ex thr c HS w e w1 E1) as HV.
  assert (a1 = a).
  { destruct EX as [EX|(_ & F & _)]; [|destruct c; simpl in *; try contradiction; auto].
    destruct c; simpl in HS, EX; try contradiction;
      repeat match type of EX with
      | match ?x with _ => _ end = _ => destruct x eqn:?
      end; try (inversion EX; fail); try (now inversion EX);
      try (unfold fin in EX; repeat match type of EX with match ?x with _ => _ end = _ => destruct x end; now inversion EX).
    - inversion EX; subst. match goal with Hc : col_coerce rs ?t ?s = (?s', _) |- _ =>
        pose proof (col_coerce_fst rs t s) as HF; rewrite Hc in HF; simpl in HF; rewrite HF by congruence end. now apply setc_same.
    - match goal with Hc : to_column_move rs ?t ?s = (?s', _) |- _ => rewrite to_column_move_ensured in Hc; pose proof (ensured_fst rs t s) as HF end.
      unfold fin in EX. destruct (snd (ensured rs t c)) eqn:Es; inversion Heqp; subst; inversion EX; subst. rewrite HF by congruence. now apply setc_same.
    - assert (G : ColHeapProofs.good (snd (ensured rs t c))).
      { unfold to_view, ensured in *. destruct (elements_type c) as [u|e'| | |]; simpl in *; auto; try (inversion Heqp; subst; simpl in EX; inversion EX; fail).
        destruct (ty_eqb u t); simpl in *; auto. destruct (col_coerce rs t c) as [s' []]; simpl in *; auto; inversion Heqp; subst; simpl in EX; inversion EX. }
      destruct (to_view_ensured rs t c G) as (o' & Eo & Ho). rewrite Eo in Heqp. inversion Heqp; subst.
      pose proof (ensured_fst rs t c) as HF. destruct (snd (ensured rs t c)) eqn:Es; try contradiction.
      + destruct Ho as [l ->]. simpl in EX. inversion EX.
      + subst o. simpl in EX. inversion EX; subst. rewrite HF by congruence. now apply setc_same. }
  subst a1. split; [exact HV|split; [exact A1|]]. intros b Hb. apply in_flat_map in Hb. destruct Hb as (hv & I1 & I2).
  apply In_nth_error in I1. destruct I1 as [x Hx]. destruct (agrees_nth _ _ _ _ HA Hx) as (v & E2 & E3).
  rewrite <- HV in Hx. destruct (agrees_nth _ _ _ _ A1 Hx) as (v' & E4 & E5). assert (v = v') by congruence. subst v'.
  eapply value_eq; [exact E3|exact E5|exact I2].
Qed.

(** Pointers: a command leaves the variables it does not change alone: they still refer to the same storage, with the same contents.
    So a pointer from data() or to_view() of a column stays valid and reads the same cells. *)
Theorem C49_pointers_stay : forall rs ex thr w a c r w1 x v b, kreach rs ex thr any_step w -> agrees a w -> defined rs c a ->
  kexec rs ex thr c w = (r, w1) -> ~ In x (changes c) -> nth_error (hvars w) x = Some v -> In b (blocks_of v) ->
  nth_error (hvars w1) x = Some v /\ exists m, nth_error (hmem w) b = Some (Some m) /\ nth_error (hmem w1) b = Some (Some m).
Proof.
  intros rs ex thr w a c r w1 x v b H HA HD Hk Hx Hv Hb.
  assert (Hl : x < length (hvars w)) by (apply nth_error_Some; congruence).
  pose proof (keeps_exec rs ex thr c w) as [_ HK]. rewrite Hk in HK. simpl in HK. specialize (HK x Hx Hl). rewrite Hv in HK. split; [exact HK|].
  destruct (C49_command _ _ _ _ H) as (a' & HA' & HC). assert (a = a') by (eapply agrees_inj; eauto). subst a'.
  destruct (HC c HD) as (r' & w' & a1 & E1 & A1 & _ & EX). rewrite E1 in Hk. inversion Hk; subst.
  assert (HS : same (changes c) a a1) by (destruct EX as [EX|(_ & F & _)]; [eapply aexec_same; eauto|now apply afail_same]).
  destruct (agrees_nth _ _ _ _ HA Hv) as (u & E2 & E3). destruct (agrees_nth _ _ _ _ A1 HK) as (u' & E4 & E5).
  destruct HS as [_ HS]. rewrite HS in E4; [|exact Hx|apply nth_error_Some; congruence]. assert (u' = u) by congruence. subst u'.
  destruct (C49_owned _ _ _ _ H) as [_ HO].
  destruct (proj1 (HO b)) as [m Hm]. { apply in_flat_map. exists v. split; auto. eapply nth_error_In; eauto. }
  exists m. split; auto. rewrite (value_eq _ _ _ _ E3 E5 b Hb). exact Hm.
Qed.

(** Moving a column, or moving it into a dataframe, moves the storage itself. *)
Theorem C49_pointers_move : forall rs ex thr w x c w1, nth_error (hvars w) x = Some (HCol c) ->
  (kexec rs ex thr (KMove x) w = (Ok tt, w1) -> nth_error (hvars w1) (length (hvars w)) = Some (HCol c) /\ nth_error (hvars w1) x = Some (HCol None)) /\
  (forall f n d, nth_error (hvars w) f = Some (HDf d) -> kexec rs ex thr (FBindCol f n x) w = (Ok tt, w1) ->
     exists d1, nth_error (hvars w1) f = Some (HDf d1) /\ helems d1 = helems d ++ [(n, c)]) /\
  (forall f g d s, f <> g -> nth_error (hvars w) f = Some (HDf d) -> nth_error (hvars w) g = Some (HDf s) ->
     kexec rs ex thr (FBindMove f g) w = (Ok tt, w1) -> exists d1, nth_error (hvars w1) f = Some (HDf d1) /\ helems d1 = helems d ++ helems s).
Proof.
  intros rs ex thr w x c w1 Hx. split; [|split].
  - simpl. unfold getc, getv, bindM, setv, addv, ret, lift. rewrite Hx. intros E. inversion E; subst; simpl.
    assert (Hl : x < length (hvars w)) by (apply nth_error_Some; congruence).
    rewrite nth_error_app2; rewrite upd_len; [|lia]. rewrite Nat.sub_diag. split; auto.
    rewrite nth_error_app1 by (rewrite upd_len; auto). apply nth_upd_eq; auto.
  - intros f n d Hf E. simpl in E. unfold bindM at 1 in E. unfold getc at 1, getv at 1, bindM at 1 in E. rewrite Hx in E. simpl in E.
    assert (Hne : x <> f) by congruence.
    unfold bindM at 1 in E. unfold getd at 1, getv at 1, bindM at 1 in E. rewrite Hf in E. simpl in E.
    assert (HO : okp (tick ex thr ;;' setv x (HCol None) ;;' (o <- hctor_named ex thr n c ;; hbind ex thr f o)) w
      (fun _ w' => exists d1, nth_error (hvars w') f = Some (HDf d1) /\ helems d1 = helems d ++ [(n, c)])).
    { apply okp_bind. apply okp_still; [apply still_tick|]. intros _ w2 H2. apply okp_bind. apply okp_setv.
      apply okp_bind. set (w3 := World (hmem w2) (upd_nat (hvars w2) x (HCol None)) (hclock w2)).
      assert (H3 : nth_error (hvars w3) f = Some (HDf d)) by (simpl; rewrite H2, nth_upd_ne by auto; exact Hf).
      unfold hctor_named. apply okp_bind. apply okp_still; [apply still_size|]. intros rc w4 H4.
      apply okp_bind. apply okp_on_throw. apply okp_still; [apply still_tick|]. intros _ w5 H5. apply okp_ret.
      rewrite <- H4, <- H5 in H3. intros [] w6 E6. eapply hbind_ptr in E6; [|exact H3]. exact E6. }
    exact (HO tt w1 E).
  - intros f g d s Hne Hf Hg E. simpl in E. unfold bindM at 1 in E. unfold getd at 1, getv at 1, bindM at 1 in E. rewrite Hg in E. simpl in E.
    unfold bindM at 1 in E. unfold getd at 1, getv at 1, bindM at 1 in E. rewrite Hf in E. simpl in E.
    eapply (hbind_ptr ex thr f s (World (hmem w) (upd_nat (hvars w) g (HDf (hdf_moved s))) (hclock w))); [simpl; rewrite nth_upd_ne; eauto|exact E].
Qed.

(** Coercion, assignment and destruction of a column release the storage pointers refer to; to_view<T> does so exactly when it has to coerce. *)
Theorem C49_pointers_die : forall rs ex thr w x b w1, nth_error (hvars w) x = Some (HCol (Some b)) ->
  (forall t, kexec rs ex thr (KCoerce t x) w = (Ok tt, w1) -> nth_error (hmem w1) b = Some None) /\
  (forall y, kexec rs ex thr (KAssign x y) w = (Ok tt, w1) -> nth_error (hmem w1) b = Some None) /\
  (kexec rs ex thr (KDestroy x) w = (Ok tt, w1) -> nth_error (hmem w1) b = Some None) /\
  (forall t m, nth_error (hmem w) b = Some (Some m) -> kexec rs ex thr (KToView t x) w = (Ok tt, w1) ->
     if ty_eqb (mty m) t then w1 = w else nth_error (hmem w1) b = Some None).
Proof.
  intros rs ex thr w x b w1 Hx.
  assert (HG : getc x w = (Ok (Some b), w)) by (unfold getc, bindM, getv; rewrite Hx; reflexivity).
  split; [|split; [|split]].
  - intros t E. simpl in E. unfold bindM at 1 in E. rewrite HG in E.
    assert (HO : okp (n <- hcoerce rs ex thr t (Some b) ;; setv x (HCol n)) w (fun _ w' => dead w' b)).
    { apply okp_bind. intros n w2 E2. apply okp_setv. apply (hcoerce_dead _ _ _ _ _ _ _ _ E2). }
    exact (HO tt w1 E).
  - intros y E. simpl in E.
    assert (HO : okp (s <- getc y ;; d <- getc x ;; n <- hassign ex thr d s ;; setv x (HCol n)) w (fun _ w' => dead w' b)).
    { apply okp_bind. intros s w2 E2. assert (w2 = w). { unfold getc, bindM, getv in E2. destruct (nth_error (hvars w) y) as [[]|]; inversion E2; auto. } subst w2.
      apply okp_bind. intros d w2 E3. rewrite HG in E3. inversion E3; subst.
      apply okp_bind. intros n w3 E4. apply okp_setv. apply (hassign_dead _ _ _ _ _ _ _ E4). }
    exact (HO tt w1 E).
  - intros E. simpl in E. unfold bindM at 1, getv at 1 in E. rewrite Hx in E.
    assert (HO : okp (free (Some b) ;;' setv x HDead) w (fun _ w' => dead w' b)).
    { apply okp_bind. apply okp_free. intros w' H. apply okp_setv. exact H. }
    exact (HO tt w1 E).
  - intros t m Hm E. simpl in E. unfold bindM at 1 in E. rewrite HG in E. unfold hensure, hcol_type in E.
    destruct (ty_eqb (mty m) t) eqn:Et.
    + unfold bindM, peek in E. rewrite Hm in E. unfold ret in E. rewrite Et in E. unfold setv in E. inversion E; subst.
      rewrite upd_same by exact Hx. now destruct w.
    + assert (HO : okp (n <- (u <- (m0 <- peek b ;; ret (mty m0)) ;; (if ty_eqb u t then ret (Some b) else hcoerce rs ex thr t (Some b))) ;; setv x (HCol n)) w
        (fun _ w' => dead w' b)).
      { apply okp_bind. apply okp_bind. intros u w2 E2. unfold bindM, peek in E2. rewrite Hm in E2. inversion E2; subst. rewrite Et.
        intros n w3 E3. apply okp_setv. apply (hcoerce_dead _ _ _ _ _ _ _ _ E3). }
      exact (HO tt w1 E).
Qed.

(** *** a program in which each of its operations fails in turn *)
(** Running a program while checking that every command has a meaning. *)
Fixpoint kvals (h : list (option model)) (l : list hvar) : option avals :=
  match l with
  | [] => Some []
  | v :: l' => match value_of h v, kvals h l' with Some x, Some r => Some (x :: r) | _, _ => None end
  end.
Fixpoint kcheck (rs : rules) (ex : exn) (thr : nat -> bool) (cs : list cop) (w : world) : option world :=
  match cs with
  | [] => Some w
  | c :: cs' =>
      match kvals (hmem w) (hvars w) with
      | Some a => match snd (aexec rs c a) with
                  | Ok _ | Throw _ => kcheck rs ex thr cs' (snd (kexec rs ex thr c w))
                  | _ => None
                  end
      | None => None
      end
  end.
Lemma kvals_agrees h l : forall a, kvals h l = Some a -> map (value_of h) l = map Some a.
Proof.
  induction l as [|v l IH]; intros a E; simpl in E. { inversion E; reflexivity. }
  destruct (value_of h v) as [x|] eqn:Ev; [|discriminate]. destruct (kvals h l) as [r|] eqn:El; [|discriminate].
  inversion E; subst. simpl. now rewrite Ev, (IH _ eq_refl).
Qed.
Lemma kcheck_reach rs ex thr cs : forall w w', kreach rs ex thr any_step w -> kcheck rs ex thr cs w = Some w' -> kreach rs ex thr any_step w'.
Proof.
  induction cs as [|c cs IH]; intros w w' H E; simpl in E. { inversion E; subst; auto. }
  destruct (kvals (hmem w) (hvars w)) as [a|] eqn:Ea; [|discriminate].
  assert (HD : defined rs c a -> kreach rs ex thr any_step (snd (kexec rs ex thr c w))).
  { intros HD. destruct (kexec rs ex thr c w) as [r w1] eqn:Ek. eapply kreach_step; [exact H|apply kvals_agrees; exact Ea|exact HD|exact I|exact Ek]. }
  destruct (snd (aexec rs c a)) as [[]|e| | |] eqn:Es; try discriminate; (eapply IH; [apply HD|exact E]); [left|right]; eauto.
Qed.
Lemma kcheck_init rs ex thr cs w' : kcheck rs ex thr cs kinit = Some w' -> kreach rs ex thr any_step w'.
Proof. apply kcheck_reach. constructor. Qed.

(** Columns, a dataframe, a copy, coercions, binds. *)
Definition demo : list cop :=
  [KNew TInt (i1 1); KNew TStr [CStr ["7"%char]]; FNull; FBindCol 2 ta 0; KCoerce TInt 1; KCopy 1; FBindCol 2 tb 3; FCopy 2; FColumn 2 0; FBindCopy 2 4; KToView TStr 1].
Example C49_ex : exists w, kcheck default_rules BadAlloc never demo kinit = Some w /\ kreach default_rules BadAlloc never any_step w
  /\ owned w = [9; 0; 3; 4; 5; 6]
  /\ nth_error (hvars w) 2 = Some (HDf (mkH 1 [(ta, Some 0); (tb, Some 3)] [(ta, 0%Z); (tb, 1%Z)])).
Proof.
  eexists. split; [vm_compute; reflexivity|]. split; [|vm_compute; auto].
  eapply (kcheck_init default_rules BadAlloc never demo). vm_compute. reflexivity.
Qed.
(** The coercion fails at its last operation: its new storage is released and the column still holds the text. *)
Example C49_fail_ex : exists w, kcheck default_rules BadAlloc (at_op 8) [KNew TInt (i1 1); KNew TStr [CStr ["7"%char]]; KCoerce TInt 1] kinit = Some w
  /\ hvars w = [HCol (Some 0); HCol (Some 1)] /\ hmem w = [Some (mkModel TInt (i1 1)); Some (mkModel TStr [CStr ["7"%char]]); None].
Proof. eexists. split; [vm_compute; reflexivity|]. split; reflexivity. Qed.
(** A program that has a meaning whatever fails. *)
Example C49_program_ex : meaningful default_rules BadAlloc [KNew TInt (i1 1); KNull; KNew TStr []] [].
Proof.
  simpl. split; [now left|]. intros r a [[E _]|[_ ->]]; [inversion E; subst|]; (split; [now left|]);
    intros r1 a1 [[E1 _]|[_ E1]]; try contradiction; inversion E1; subst; (split; [now left|]); auto.
Qed.
(** The destruction of everything releases everything. *)
Example C49_leak_ex : exists w, kcheck default_rules BadAlloc never (demo ++ map KDestroy [0; 1; 2; 3; 4; 5]) kinit = Some w
  /\ hvars w = repeat HDead 6 /\ hmem w = repeat None 10.
Proof. eexists. split; [vm_compute; reflexivity|]. split; reflexivity. Qed.
(** The pointer to the column of text (storage 1) is invalid after to_view<int>, that to the first column (storage 0) is not. *)
Example C49_pointer_ex :
  let w := snd (krun default_rules BadAlloc never [KNew TInt (i1 1); KNew TStr [CStr ["7"%char]]] kinit) in
  let w1 := snd (kexec default_rules BadAlloc never (KToView TInt 1) w) in
  hmem w1 = [Some (mkModel TInt (i1 1)); None; Some (mkModel TInt (i1 7))] /\ changes (KToView TInt 1) = [1].
Proof. split; reflexivity. Qed.

(** ** C50: consistency of dataframes *)

(** As long as no copy assignment of dataframes fails for want of memory, every column of every dataframe has row_count() rows, whatever else fails. *)
Theorem C50_rectangular : forall rs ex thr w a x d, kreach rs ex thr (no_failed_assignment ex) w -> agrees a w ->
  nth_error a x = Some (AF d) -> forall nc, In nc (elems d) -> col_size (ncolumn nc) = rows d.
Proof.
  intros rs ex thr w a x d H HA Hx nc Hn. pose proof (reach_frames_rect _ _ _ _ H a HA x d Hx) as HR. unfold rect in HR.
  rewrite Forall_forall in HR. auto.
Qed.

(** If moreover no bind fails for want of memory, and list constructors put named columns first, lookup by name and uniqueness of names hold too. *)
Theorem C50_consistent : forall rs ex thr w a x d, kreach rs ex thr (careful ex) w -> agrees a w ->
  nth_error a x = Some (AF d) -> rect d /\ lookup_ok d /\ unique_names (names d).
Proof. intros rs ex thr w a x d H HA Hx. exact (reach_frames_consistent _ _ _ _ H a HA x d Hx). Qed.

(** A bind that fails for want of memory: the dataframe has got some first columns of the argument; names of columns are looked up rightly; the name of
    one column that was not bound may be in the index, and its lookup is undefined. *)
Theorem C50_failed_bind : forall rs ex thr w a c f d w1, kreach rs ex thr any_step w -> agrees a w -> defined rs c a ->
  all_frames consistent a -> ex <> LogicError ->
  (exists g, c = FBindCopy f g \/ c = FBindMove f g /\ f <> g) \/ (exists n x, c = FBindCol f n x) ->
  nth_error a f = Some (AF d) -> kexec rs ex thr c w = (Throw ex, w1) ->
  exists a1 d1 l, agrees a1 w1 /\ nth_error a1 f = Some (AF d1) /\ elems d1 = elems d ++ l /\
    rect d1 /\ unique_names (names d1) /\
    (forall n, n <> [] -> In n (names d1) -> exists nc, at_name d1 n = Ok nc /\ In nc (elems d1) /\ nname nc = n) /\
    (forall n, ~ In n (names d1) -> at_name d1 n = Throw LogicError \/ n <> [] /\ at_name d1 n = UB).
Proof.
  intros rs ex thr w a c f d w1 H HA HD HC Hex Hc Hf Hk.
  destruct (C49_command _ _ _ _ H) as (a' & HA' & HS). assert (a = a') by (eapply agrees_inj; eauto). subst a'.
  destruct (HS c HD) as (r & w' & a1 & E1 & A1 & _ & EX). rewrite E1 in Hk. inversion Hk; subst.
  assert (HB : exists d1 o, nth_error a1 f = Some (AF d1) /\ rect o /\ unique_names (names o) /\ bind_failed d o d1).
  { assert (Hset : forall b d1, length b = length a -> nth_error (setf b f d1) f = Some (AF d1)).
    { intros b d1 Hl. apply nth_upd_eq. rewrite Hl. apply nth_error_Some. congruence. }
    assert (Hadf : adf a f = Some d) by (now apply adf_nth).
    assert (HBL : forall o d2 r2, bind d o = (d2, r2) -> r2 = Throw ex -> False).
    { intros o d2 r2 Eb ->. destruct (bind_cases _ _ _ _ Eb) as [(E & _)|(E & _)]; congruence. }
    destruct EX as [EX|(_ & F & _)].
    - exfalso. destruct Hc as [(g & [->|[-> Hne]])|(n & x & ->)]; simpl in EX; rewrite Hadf in EX.
      + destruct (adf a g) as [s|]; [|inversion EX]. destruct (df_copy_ok s) as [[Ec _]|Ec]; rewrite Ec in EX; [|inversion EX].
        destruct (bind d s) as [d2 r2] eqn:Eb. inversion EX; subst. eapply HBL; eauto.
      + destruct (adf a g) as [s|]; [|inversion EX]. unfold setf in EX at 1. rewrite adf_upd in EX by auto. rewrite Hadf in EX.
        destruct (bind d s) as [d2 r2] eqn:Eb. inversion EX; subst. eapply HBL; eauto.
      + destruct (acol a x) as [s|]; [|inversion EX].
        destruct (bind d (ctor_named (mkN n s))) as [d2 r2] eqn:Eb. inversion EX; subst. eapply HBL; eauto.
    - destruct Hc as [(g & [->|[-> Hne]])|(n & x & ->)]; simpl in F.
      + destruct F as (d0 & s & d' & F1 & F2 & F3 & ->). assert (d0 = d) by congruence. subst d0.
        exists d', s. destruct (HC g s) as (R1 & _ & R3); [now apply adf_nth|]. split; auto.
      + destruct F as (s & d0 & d' & F1 & F2 & F3 & ->). unfold setf in F2. rewrite adf_upd in F2 by auto. assert (d0 = d) by congruence. subst d0.
        exists d', s. destruct (HC g s) as (R1 & _ & R3); [now apply adf_nth|]. split; [apply Hset; apply upd_len|auto].
      + destruct F as (d0 & s & F1 & F2 & F3). assert (d0 = d) by congruence. subst d0.
        destruct F3 as [->|(d' & F3 & ->)].
        * exists d, (ctor_named (mkN n s)). split; [exact Hf|split; [apply ctor_named_rect|split; [apply unique_one|now left]]].
        * exists d', (ctor_named (mkN n s)). split; [apply Hset; apply upd_len|split; [apply ctor_named_rect|split; [apply unique_one|auto]]]. }
  destruct HB as (d1 & o & E2 & R1 & R2 & HB).
  destruct (bind_failed_spec d o d1 (HC _ _ Hf) R1 R2 HB) as (P1 & P2 & (k & P3) & P4 & P5 & _).
  exists a1, d1, (firstn k (elems o)). repeat (split; [assumption|]). intros n Hn. destruct (P5 n Hn) as [?|(? & _ & ?)]; auto.
Qed.

(** The undefined lookup happens; and when the program goes on binding, the name of the lost column finds another column. *)
Definition lost : list cop :=
  [KNew TInt (i1 1); KNew TInt (i1 2); KNew TInt (i1 3); FNull; FBindCol 3 ta 0; FBindCol 3 tb 1].
Theorem C50_failed_bind_refuted : exists w w1 a a1 d d1 nc,
  kreach default_rules BadAlloc (at_op 20) any_step w /\ agrees a w /\ nth_error a 3 = Some (AF d) /\
  ~ In tb (names d) /\ at_name d tb = UB /\
  kexec default_rules BadAlloc (at_op 20) (FBindCol 3 tc 2) w = (Ok tt, w1) /\ agrees a1 w1 /\ nth_error a1 3 = Some (AF d1) /\
  ~ In tb (names d1) /\ at_name d1 tb = Ok nc /\ nname nc = tc.
Proof.
  do 7 eexists. split; [eapply (kcheck_init _ _ _ lost); vm_compute; reflexivity|].
  split; [apply kvals_agrees; vm_compute; reflexivity|]. split; [vm_compute; reflexivity|].
  split; [vm_compute; intuition discriminate|]. split; [vm_compute; reflexivity|]. split; [vm_compute; reflexivity|].
  split; [apply kvals_agrees; vm_compute; reflexivity|]. split; [vm_compute; reflexivity|].
  split; [vm_compute; intuition discriminate|]. split; vm_compute; reflexivity.
Qed.

(** A copy assignment of dataframes that fails for want of memory: row_count() is that of the source, and a column of the destination has
    another number of rows, under a name of the source that at() does not find. *)
Theorem C50_failed_assignment_refuted : exists w a d nc,
  kreach default_rules BadAlloc (at_op 30) any_step w /\ agrees a w /\ nth_error a 2 = Some (AF d) /\
  elems d = [nc] /\ rows d = 2%Z /\ col_size (ncolumn nc) = 1%Z /\ nname nc = tb /\ at_name d tb = Throw LogicError.
Proof.
  do 4 eexists. split.
  { eapply (kcheck_init _ _ _ [KNew TInt (i1 1); KNew TInt [CInt 2; CInt 3]; FList [(ta, 0)]; FList [(tb, 1)]; FAssign 1 true 2 3]); vm_compute; reflexivity. }
  split; [apply kvals_agrees; vm_compute; reflexivity|]. split; [vm_compute; reflexivity|]. repeat split; vm_compute; reflexivity.
Qed.

Example C50_ex : exists w a d, kreach default_rules BadAlloc (at_op 20) any_step w /\ agrees a w /\ all_frames consistent a /\
  nth_error a 2 = Some (AF d) /\ elems d = [mkN ta (Some (mkModel TInt (i1 1)))] /\
  exists w1, kexec default_rules BadAlloc (at_op 20) (FBindCol 2 tb 1) w = (Throw BadAlloc, w1).
Proof.
  do 3 eexists. split; [eapply (kcheck_init _ _ _ [KNew TInt (i1 1); KNew TInt (i1 2); FNull; FBindCol 2 ta 0; KCopy 1]); vm_compute; reflexivity|].
  split; [apply kvals_agrees; vm_compute; reflexivity|]. split; [|split; [vm_compute; reflexivity|split; [vm_compute; reflexivity|eexists; vm_compute; reflexivity]]].
  intros x d E. assert (d = mkDf 1 [mkN ta (Some (mkModel TInt (i1 1)))] [(ta, 0%Z)]).
  { destruct x as [|[|[|[|x]]]]; simpl in E; inversion E; auto. destruct x; discriminate. }
  subst d. apply consistent_good. eapply (FrameProofs.bind_good df_default (ctor_named (mkN ta (Some (mkModel TInt (i1 1)))))).
  - apply good_default.
  - apply ctor_named_rect.
  - apply unique_one.
  - reflexivity.
Qed.
(** A careful history. *)
Example C50_careful_ex : exists w a, kreach default_rules BadAlloc never (careful BadAlloc) w /\ agrees a w /\
  nth_error a 1 = Some (AF (mkDf 1 [mkN ta (Some (mkModel TInt (i1 1)))] [(ta, 0%Z)])).
Proof.
  set (c1 := KNew TInt (i1 1)). set (c2 := FList [(ta, 0)]).
  pose (w1 := snd (kexec default_rules BadAlloc never c1 kinit)). pose (w2 := snd (kexec default_rules BadAlloc never c2 w1)).
  exists w2. eexists. split; [|split; [apply kvals_agrees; vm_compute; reflexivity|reflexivity]].
  assert (H1 : kreach default_rules BadAlloc never (careful BadAlloc) w1).
  { eapply (kreach_step _ _ _ _ kinit [] c1 (Ok tt)); [constructor|reflexivity|left; reflexivity|exact I|vm_compute; reflexivity]. }
  eapply (kreach_step _ _ _ _ w1 _ c2 (Ok tt)); [exact H1|apply kvals_agrees; vm_compute; reflexivity|left; vm_compute; reflexivity| |vm_compute; reflexivity].
  exists [ta], []. split; [reflexivity|]. split; repeat constructor. discriminate.
Qed.

Print Assumptions C49_owned.
Print Assumptions C49_command.
Print Assumptions C49_program.
Print Assumptions C49_strong.
Print Assumptions C49_pointers_stay.
Print Assumptions C49_pointers_move.
Print Assumptions C49_pointers_die.
Print Assumptions C50_rectangular.
Print Assumptions C50_consistent.
Print Assumptions C50_failed_bind.
Print Assumptions C50_failed_bind_refuted.
Print Assumptions C49_no_leak.
Print Assumptions C50_failed_assignment_refuted.
