(** * PropViewLife: C48: a view follows the elements, not the variable, until these are destroyed. *)

From Coq Require Import ZArith List Bool Lia.
From Verif Require Import Base Spec Desc Slice SliceSpec Lemmas RunProofs ViewThms Life LifeSpec LifeProofs LifeList LifeSim LifeThms PropLife ViewLife ViewLifeProofs.
Import ListNotations.
Open Scope Z_scope.

(** From any state reached by a program ([every_program_balanced_partial]), run any further program, with any throw points.  The view [ps] of variable [x]
    (its storage being block [b]) afterwards reads the current elements of the variable that [vexec] designates: the
    elements are carried along by moves, swaps, reshapes and releases, and stay in place under assignments of the same size, of another variable,
    and operations that throw.  When [vexec] designates none (destroyed, or assigned another size) every read is undefined. *)
Theorem view_follows_storage : forall V thr nt ns, (nt = true -> ns = true) -> forall chk (p : @prog V) (w : world) st ast x b es vs ps,
  Forall2 (repr' w) st ast -> no_sharing st -> no_lost_object w st -> ok_prog p ast -> pushes_safe nt p ->
  avar ast x = Some (AArr es vs) -> owns st x b -> Forall (fun q => Z.of_nat q < zprod es) ps ->
  exists log w' st' ast' x', runs thr nt ns chk p (w, st) = (ROk log, (w', st')) /\ Forall2 (repr' w') st' ast' /\
    vexec p log ast (Some x) ast' x' /\
    match x' with
    | Some y => owns st' y b /\ exists es' vs', avar ast' y = Some (AArr es' vs') /\ zprod es' = zprod es /\
        forall d, read_view b ps w' = (ROk (map (fun q => nth q vs' d) ps), w')
    | None => ps <> [] -> fst (read_view b ps w') = RUB
    end.
Proof. intros V thr nt ns Hns. exact (view_follows thr nt ns Hns). Qed.
Print Assumptions view_follows_storage.

Lemma positions_in_storage es steps : good_shape es -> ok_steps (afull es) steps ->
  Forall (fun q => 0 <= q < zprod es) (snd (aselects (afull es) steps)).
Proof.
  intros Hg. revert steps. apply (rev_ind (fun steps => ok_steps (afull es) steps -> Forall (fun q => 0 <= q < zprod es) (snd (aselects (afull es) steps)))).
  - intros _. cbn. apply Forall_forall. intros z Hz. apply in_iota in Hz. auto.
  - intros us steps IH Hok. pose proof Hok as Hok'. apply ok_steps_snoc in Hok' as (Hok' & _). specialize (IH Hok').
    destruct (slice_denotes true es steps us Hg Hok) as (f0 & H). destruct (H f0 (le_n _)) as (s & shape & ps & s' & _ & _ & _ & _ & _ & _ & Hr & Hl & E).
    assert (Es : forall l v, aselects v (l ++ [us]) = aselect (aselects v l) us) by (induction l; cbn; auto).
    rewrite Es, E. cbn [snd aselect fst]. rewrite E in IH. cbn in IH. rewrite Forall_forall in *. intros z Hz.
    apply in_map_iff in Hz as (ix & <- & Hix). apply IH. apply aview_at_In; auto.
Qed.

(** The same for a view obtained by any history of slicings of the array: [positions] are those that iteration over the view visits.
    (A vector subscripted by a container of the program also refers to that container, which must stay as it is: C65.) *)
Theorem sliced_view_follows_storage : forall V thr nt ns, (nt = true -> ns = true) -> forall chk (p : @prog V) (w : world) st ast x b es vs steps,
  Forall2 (repr' w) st ast -> no_sharing st -> no_lost_object w st -> ok_prog p ast -> pushes_safe nt p ->
  avar ast x = Some (AArr es vs) -> owns st x b -> good_shape es -> ok_steps (afull es) steps ->
  exists log w' st' ast' x' fuel0, runs thr nt ns chk p (w, st) = (ROk log, (w', st')) /\ Forall2 (repr' w') st' ast' /\
    vexec p log ast (Some x) ast' x' /\
    forall fuel, (fuel0 <= fuel)%nat -> exists s ps, foldO (run chk fuel) steps (SRef 0 es) = Ok s /\ positions fuel s = Ok ps /\
    match x' with
    | Some y => owns st' y b /\ exists es' vs', avar ast' y = Some (AArr es' vs') /\ zprod es' = zprod es /\
        forall d, read_view b (map Z.to_nat ps) w' = (ROk (map (fun q => nth (Z.to_nat q) vs' d) ps), w')
    | None => fst (read_view b (map Z.to_nat ps) w') = RUB
    end.
Proof.
  intros V thr nt ns Hns chk p w st ast x b es vs steps H1 H2 H3 H4 H5 H6 H7 Hg Hok.
  destruct (history_ok chk es steps Hg Hok) as (f0 & H).
  set (ps := snd (aselects (afull es) steps)) in *.
  pose proof (positions_in_storage es steps Hg Hok) as HF. fold ps in HF.
  destruct (view_follows thr nt ns Hns chk p w st ast x b es vs (map Z.to_nat ps) H1 H2 H3 H4 H5 H6 H7) as (log & w' & st' & ast' & x' & E & R & Hv & Hm).
  { rewrite Forall_map. eapply Forall_impl; [|exact HF]. cbn. intros. lia. }
  exists log, w', st', ast', x', (S (f0 + Z.to_nat (zprod (fst (aselects (afull es) steps))))). split; [auto|]. split; [auto|]. split; [auto|].
  intros fuel Hf. destruct (H fuel) as (s & Er & I & _); [lia|]. exists s, ps.
  split; [auto|]. split; [apply (sinv_positions _ _ _ I); lia|].
  destruct x' as [y|].
  - destruct Hm as (A & es' & vs' & B & C & D). split; [auto|]. exists es', vs'. split; [auto|]. split; [auto|]. intros d. rewrite (D d), map_map. auto.
  - apply Hm. intros E'. apply map_eq_nil in E'. destruct (sinv_good _ _ I) as [[G1 [G2 G3]] L]. fold ps in L. rewrite E' in L.
    pose proof (zprod_pos _ G2). cbn in L. lia.
Qed.
Print Assumptions sliced_view_follows_storage.

(** Writing element [q] of the view changes element [q] of the variable that holds the storage, and nothing else; if the element's
    assignment throws, nothing at all. *)
Theorem view_write_through : forall V thr (w : @world V) st ast y b es vs q v,
  Forall2 (repr' w) st ast -> no_sharing st -> no_lost_object w st ->
  avar ast y = Some (AArr es vs) -> owns st y b -> (q < length vs)%nat ->
  (exists k', assign_at thr (Some b) q v w = (RThrow, World (blocks w) k')) \/
  (exists w', assign_at thr (Some b) q v w = (ROk tt, w') /\
     Forall2 (repr' w') st (aset ast y (Some (AArr es (firstn q vs ++ v :: skipn (S q) vs)))) /\ no_sharing st /\ no_lost_object w' st).
Proof.
  intros V thr w st ast y b es vs q v H1 H2 H3 H4 H5 H6.
  assert (E : forall (l : list V) k, (k < length l)%nat -> upd_nat l k v = firstn k l ++ v :: skipn (S k) l).
  { induction l as [|a l IH]; intros [|k] Hk; cbn in *; try lia; auto. f_equal. apply IH. lia. }
  rewrite <- E by auto. eapply view_write_l; eauto.
Qed.
Print Assumptions view_write_through.

(** A view of variable 0, a 2 x 2 array; it is moved to 1, reshaped to 2, assigned a 4-element value, swapped with 3: the view reads the new
    elements, held by 3.  Then 3 is destroyed, or assigned 3 elements: the view dangles. *)
Definition vdemo : list (@op Z) :=
  [OMove 1 0; OReshape 2 1 [4]; OAssignConv 2 [5; 6; 7; 8] [2; 2]; ONew 3 [DSize] (SrcValue 9) [3]; OAssignMove 3 2].
Example view_follows_ex :
  let w := World [Some (map Some [1; 2; 3; 4])] 0 in
  let st := Some (OArr (Arr (Some 0%nat) [2; 2])) :: repeat None 3 in
  let ast := Some (AArr [2; 2] [1; 2; 3; 4]) :: repeat None 3 in
  Forall2 (repr' w) st ast /\ no_sharing st /\ no_lost_object w st /\ ok_prog (pseq vdemo PEnd) ast /\ pushes_safe true (pseq vdemo PEnd) /\
  owns st 0 0 /\ good_shape [2; 2] /\ ok_steps (afull [2; 2]) [[UEvery; USlice 1 1]] /\ snd (aselects (afull [2; 2]) [[UEvery; USlice 1 1]]) = [2; 3] /\
  (exists w' st' ast', runs (fun _ => false) true true true (pseq vdemo PEnd) (w, st) = (ROk (repeat false 5), (w', st')) /\
     vexec (pseq vdemo PEnd) (repeat false 5) ast (Some 0%nat) ast' (Some 3%nat) /\ avar ast' 3 = Some (AArr [2; 2] [5; 6; 7; 8]) /\
     read_view 0 [2; 3]%nat w' = (ROk [7; 8], w') /\
     holder (ODestroy 3) ast' 3 = None /\ holder (OAssignConv 3 [1] [1]) ast' 3 = None /\
     fst (read_view 0 [2; 3]%nat (fst (snd (step (fun _ => false) true true true (ODestroy 3) (w', st'))))) = RUB /\
     fst (read_view 0 [2; 3]%nat (fst (snd (step (fun _ => false) true true true (OAssignConv 3 [1] [1]) (w', st'))))) = RUB).
Proof.
  cbv zeta. split; [repeat constructor; cbn; repeat (split || discriminate || lia || constructor); try lia; reflexivity|].
  split; [|split].
  - intros x y b (o & E & Ho) (o' & E' & Ho'). destruct x as [|[|[|[|[|x]]]]], y as [|[|[|[|[|y]]]]]; cbn in *; try congruence; inversion E; inversion E'; subst; discriminate.
  - intros b c E Hn. destruct b as [|[|b]]; cbn in E; try discriminate. exfalso. apply Hn. exists 0%nat. eexists. split; reflexivity.
  - split; [|split; [vm_compute; repeat split|]].
    + unfold vdemo. cbn [pseq ok_prog ok_op].
      split; [split; demo1|]. split; [|demo_end].
      split; [split; [demo1|split; [demo1|exists [2; 2]; split; [left; eexists; demo1|demo1]]]|]. split; [|demo_end].
      split; [split; [demo1|split; [demo1|exists [4]; left; eexists; demo1]]|]. split; [|demo_end].
      split; [split; [demo1|split; [demo1|split; [repeat split|demo1]]]|]. split; [|demo_end].
      split; [split; [discriminate|split; [eexists; left; eexists; demo1|eexists; left; eexists; demo1]]|]. split; [|demo_end]. exact I.
    + split; [eexists; split; reflexivity|]. split; [split; [discriminate|split; [repeat constructor; lia|vm_compute; reflexivity || discriminate]]|].
      split; [cbn [ok_steps]; split; [split; [repeat constructor; cbn; lia|split; [reflexivity|vm_compute; discriminate]]|split; [reflexivity|exact I]]|].
      split; [reflexivity|]. do 3 eexists. split; [vm_compute; reflexivity|].
      split; [repeat (apply vexec_ok); vm_compute; apply vexec_end|]. repeat split; vm_compute; reflexivity.
Qed.
