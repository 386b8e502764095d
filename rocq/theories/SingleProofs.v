(** * SingleProofs: algorithms and constructors on sources that can be read only once. *)

From Coq Require Import ZArith List Bool Lia Permutation Floats.SpecFloat Reals Lra.
From Flocq Require Import Core BinarySingleNaN.
From Verif Require Import Base Spec Desc Slice Coerce Random Reduce Stats Freq ReduceSpec StatsSpec DescProofs RandomProofs ReduceProofs StatsProofs StatsInt MathProofs DistProofs RangeLoop
  RangeLoopSpec RangeLoopProofs Single SingleSpec.
Import ListNotations.
Open Scope Z_scope.

Section Loops.
Context {A : Type}.
Implicit Types (l s : list A).

Lemma each_some {S R} (body : S -> A -> outcome (step S R)) fin : forall s fuel x st, (length s < fuel)%nat ->
  each body fin fuel (Some x) s st = (let* q := list_loop body fin (x :: s) st in Ok (fst q, skipn (snd q) (x :: s))).
Proof.
  induction s as [|y s IH]; intros fuel x st Hf; (destruct fuel as [|fuel]; [cbn in Hf; lia|]); cbn [each sit_get bindO list_loop].
  - destruct (body st x) as [r| | | |]; cbn [bindO]; auto. destruct r as [st'|q]; [|reflexivity]. cbn. destruct fuel; reflexivity.
  - destruct (body st x) as [r| | | |]; cbn [bindO]; auto. destruct r as [st'|q]; [|reflexivity]. cbn [sit_inc sit_read bindO fst snd].
    cbn in Hf. rewrite IH by lia. cbn [list_loop]. destruct (body st' y) as [r| | | |]; cbn [bindO]; auto. destruct r as [st''|q]; [|reflexivity].
    destruct (list_loop body fin s st'') as [q| | | |]; reflexivity.
Qed.
Lemma each_none {S R} (body : S -> A -> outcome (step S R)) fin s fuel st : each body fin fuel None s st = Ok (fin st, s).
Proof. destruct fuel; reflexivity. Qed.
Lemma of_stream_each {S R} (body : S -> A -> outcome (step S R)) fin l fuel st : (length l < fuel)%nat ->
  of_stream l (fun i s => each body fin fuel i s st) = (let* q := list_loop body fin l st in Ok (fst q, skipn (snd q) l)).
Proof. intros Hf. unfold of_stream. destruct l as [|x l]; cbn [sit_make sit_read]; [rewrite each_none; reflexivity|]. apply each_some. cbn in Hf. lia. Qed.
(** A second loop from a copy of the iterator sees the value it holds, and nothing else. *)
Lemma each_again {S R} (body : S -> A -> outcome (step S R)) fin fuel x st : (0 < fuel)%nat ->
  each body fin fuel (Some x) [] st = (let* q := list_loop body fin [x] st in Ok (fst q, [])).
Proof.
  intros Hf. rewrite each_some by (cbn; lia). cbn. destruct (body st x) as [r| | | |]; auto. destruct r; reflexivity.
Qed.

Lemma distance_some fuel (x : A) s : (length s < fuel)%nat -> s_distance fuel (Some x) s = Ok (Z.of_nat (length (x :: s)), []).
Proof.
  intros Hf. unfold s_distance. rewrite each_some by auto. rewrite list_goes. cbn [bindO fst snd].
  rewrite skipn_all. f_equal. f_equal.
  assert (E : forall l n, fold_left (fun (n : Z) (_ : A) => n + 1) l n = n + Z.of_nat (length l)); [|rewrite E; lia].
  induction l as [|a l IH]; intros n; cbn [fold_left length]; [lia|]. rewrite IH. lia.
Qed.
Lemma distance_again fuel (x : A) : (0 < fuel)%nat -> s_distance fuel (Some x) [] = Ok (1, []).
Proof. intros H. rewrite distance_some by (cbn; lia). reflexivity. Qed.

Lemma copy_n_spec : forall n i s,
  s_copy_n n i s = match n, i with
                   | O, _ => Ok ([], s)
                   | S _, None => UB
                   | S n', Some x => if (n' <=? length s)%nat then Ok (x :: firstn n' s, skipn n s) else UB
                   end.
Proof.
  induction n as [|n IH]; intros i s; [reflexivity|]. destruct i as [x|]; [|reflexivity]. cbn [s_copy_n sit_get sit_inc bindO]. rewrite IH. clear IH.
  destruct n as [|n].
  - cbn. destruct s; reflexivity.
  - destruct s as [|y s]; cbn [sit_read fst snd bindO]; [reflexivity|]. cbn [length Nat.leb]. destruct (n <=? length s)%nat; reflexivity.
Qed.
Lemma copy_stream n l : of_stream l (s_copy_n n) = if (n <=? length l)%nat then Ok (firstn n l, skipn (S n) l) else UB.
Proof.
  unfold of_stream. destruct l as [|x l]; cbn [sit_make sit_read]; rewrite copy_n_spec; destruct n as [|n]; try reflexivity.
Qed.
End Loops.

(** ** means and variances of integers *)
Lemma smean_once sf t fuel x : (0 < fuel)%nat -> std_ty t -> ilo t <= x <= ihi t -> it_smean sf t fuel (Some x) [] 0 = Ok (x, []).
Proof.
  intros Hf T R. assert (S1 : it_isum t fuel (Some x) [] 0 = Ok (x, [])).
  { unfold it_isum. rewrite each_again by auto. rewrite list_goesO. cbn [foldO bindO]. unfold isum in *.
    assert (E : isum t [x] 0 = Ok (0 + zsum [x])). { apply isum_exact; auto. intros k _. pose proof (ilo_neg t T). destruct k as [|k]; cbn; [|rewrite firstn_nil; cbn; lia]. assert (0 <= ihi t) by (pose proof T as Q; unfold std_ty in Q; unfold ihi; destruct (signed t); cbn in Q; destruct Q as [<-|[<-|[<-|[<-|[]]]]]; cbn; lia). lia. }
    unfold isum in E. cbn [foldO] in E. cbn [foldO]. destruct (iadd t 0 x); cbn [bindO] in *; try discriminate. injection E as ->. cbn. f_equal. f_equal. cbn. lia. }
  unfold it_smean. destruct sf.
  - rewrite S1. cbn [bindO fst snd]. rewrite distance_again by auto. cbn [bindO fst snd]. rewrite idiv_fit by (auto; lia). cbn [bindO]. now rewrite Z.quot_1_r.
  - rewrite distance_again by auto. cbn [bindO fst snd]. rewrite S1. cbn [bindO fst snd]. rewrite idiv_fit by (auto; lia). cbn [bindO]. now rewrite Z.quot_1_r.
Qed.

Lemma ihi_nonneg t : std_ty t -> 0 <= ihi t.
Proof. intros Q. unfold std_ty in Q. unfold ihi; destruct (signed t); cbn in Q; destruct Q as [<-|[<-|[<-|[<-|[]]]]]; cbn; lia. Qed.
Lemma one_fits t x : std_ty t -> ilo t <= x <= ihi t -> partial_sums_fit t [x] 0.
Proof. intros T R k _. pose proof (ilo_neg t T). pose proof (ihi_nonneg t T). destruct k as [|k]; cbn; [|rewrite firstn_nil; cbn]; lia. Qed.

Lemma smean_first t fuel x l : (length l < fuel)%nat -> std_ty t -> partial_sums_fit t (x :: l) 0 ->
  s_imean true t fuel (x :: l) 0 = Ok (zsum (x :: l), []).
Proof.
  intros Hf T P. unfold s_imean, of_stream. cbn [sit_make sit_read]. unfold it_smean, it_isum. rewrite each_some by auto. rewrite list_goesO.
  fold (isum t (x :: l) 0). rewrite isum_exact by auto. cbn [bindO fst snd]. rewrite skipn_all, distance_again by lia. cbn [bindO fst snd].
  specialize (P (length (x :: l)) (le_n _)). rewrite firstn_all in P. rewrite idiv_fit by (auto; lia). cbn [bindO]. rewrite Z.quot_1_r. reflexivity.
Qed.
Lemma smean_last t fuel x l : (length l < fuel)%nat -> std_ty t -> ilo t <= x <= ihi t -> Z.of_nat (length (x :: l)) < 2 ^ 63 ->
  s_imean false t fuel (x :: l) 0 = Ok (Z.quot x (Z.of_nat (length (x :: l))), []).
Proof.
  intros Hf T R N. unfold s_imean, of_stream. cbn [sit_make sit_read]. unfold it_smean, it_isum. rewrite distance_some by auto. cbn [bindO fst snd].
  rewrite each_again by lia. rewrite list_goesO. fold (isum t [x] 0). rewrite isum_exact by auto using one_fits. cbn [bindO fst snd].
  cbn [zsum fold_right]. rewrite Z.add_0_r, Z.add_0_l. rewrite idiv_fit by (auto; cbn [length] in *; lia). reflexivity.
Qed.
Lemma svar_zero sf t fuel x y l : (S (length l) < fuel)%nat -> std_ty t -> ilo t <= x <= ihi t -> Z.of_nat (length (x :: y :: l)) < 2 ^ 63 ->
  s_ivar sf t fuel (x :: y :: l) 0 = Ok 0.
Proof.
  intros Hf T R N. unfold s_ivar, of_stream. cbn [sit_make sit_read]. rewrite distance_some by (cbn; lia). cbn [bindO fst snd].
  rewrite smean_once by (auto; lia). cbn [bindO fst snd]. rewrite each_again by lia. rewrite list_goesO. cbn [foldO].
  pose proof (ilo_neg t T). pose proof (ihi_nonneg t T).
  assert (E : isquare_step t x 0 x = Ok (0 + (x - x) * (x - x))).
  { apply step_fit; auto; try lia. exists x, 1. rewrite Z.quot_1_r. lia. }
  rewrite E. cbn [bindO fst snd]. replace (0 + (x - x) * (x - x)) with 0 by lia. cbn [length] in *.
  rewrite idiv_fit by (auto; lia). rewrite Z.quot_0_l by lia. reflexivity.
Qed.

(** ** doubles *)
Section Doubles.
Local Existing Instance Hprec.
Local Existing Instance Hmax.
Local Existing Instance Vfex.
Local Notation fex := (FLT_exp (-1074) 53).
Local Notation rnd := (round radix2 fex ZnearestE).
Open Scope R_scope.

Lemma by_one x : is_double x -> finite x -> finite (fdiv x (dbl 1)) /\ dval (fdiv x (dbl 1)) = dval x.
Proof.
  intros D F. destruct one_val as [O1 O2]. assert (N : dval (dbl 1) <> 0) by (rewrite O1; lra).
  assert (Fd : finite (fdiv x (dbl 1))).
  { pose proof (dbl_double 1) as D1. destruct (lift x D) as [bx Ex]. destruct (lift (dbl 1) D1) as [b1 E1]. rewrite <- Ex, <- E1 in *.
    rewrite fdiv_equiv. rewrite !finite_is in *. rewrite !dval_B2R in *.
    pose proof (Bdiv_correct 53 1024 Hprec Hmax mode_NE bx b1 N) as C. change (SpecFloat.fexp 53 1024) with fex in C. change (round_mode mode_NE) with ZnearestE in C.
    rewrite O1 in C. unfold Rdiv in C. rewrite Rinv_1, Rmult_1_r in C. rewrite round_generic in C; [|apply valid_rnd_N|rewrite <- dval_B2R; apply format; exact D].
    rewrite Rlt_bool_true in C by apply abs_B2R_lt_emax. destruct C as (_ & C & _). now rewrite C. }
  split; auto. rewrite fdiv_val by (auto using dbl_double). rewrite O1. unfold Rdiv. rewrite Rinv_1, Rmult_1_r. apply round_generic; [apply valid_rnd_N|now apply format].
Qed.
Lemma zero_plus x : is_double x -> finite x -> finite (fadd fzero x) /\ dval (fadd fzero x) = dval x.
Proof. intros D F. destruct x as [s|s| |s m e]; cbn in F; try contradiction; [destruct s; cbn; auto|]. split; [exact I|reflexivity]. Qed.
Lemma rnd0 : rnd 0 = 0.
Proof. apply round_0. apply valid_rnd_N. Qed.
Lemma minus_same x y : is_double x -> is_double y -> finite x -> finite y -> dval x = dval y -> finite (fsub x y) /\ dval (fsub x y) = 0.
Proof.
  intros Dx Dy Fx Fy E. assert (Z0 : dval x - dval y = 0) by lra.
  assert (F : finite (fsub x y)). { apply fsub_ok; auto. rewrite Z0, Rabs_R0. apply bpow_ge_0. }
  split; auto. rewrite fsub_val by auto. now rewrite Z0, rnd0.
Qed.
Lemma squared_zero x : is_double x -> finite x -> dval x = 0 -> finite (fsquare x) /\ dval (fsquare x) = 0.
Proof.
  intros D Fx E. unfold fsquare. assert (F : finite (fmul x x)). { apply fmul_ok; auto. rewrite E, Rmult_0_l, Rabs_R0. apply bpow_ge_0. }
  split; auto. rewrite fmul_val by auto. now rewrite E, Rmult_0_l, rnd0.
Qed.
Lemma zero_by n x : (1 <= n <= 2 ^ 53)%Z -> is_double x -> finite x -> dval x = 0 -> finite (fdiv x (dbl n)) /\ dval (fdiv x (dbl n)) = 0.
Proof.
  intros H D Fx E. assert (V : dval (dbl n) = IZR n) by (apply dbl_val; lia). assert (N : dval (dbl n) <> 0) by (rewrite V; apply not_0_IZR; lia).
  assert (Z0 : dval x / dval (dbl n) = 0) by (rewrite E; unfold Rdiv; ring).
  assert (F : finite (fdiv x (dbl n))). { apply fdiv_ok; auto using dbl_double. rewrite Z0, Rabs_R0. apply bpow_ge_0. }
  split; auto. rewrite fdiv_val by auto using dbl_double. now rewrite Z0, rnd0.
Qed.

Lemma sfmean_once sf fuel x : (0 < fuel)%nat -> it_sfmean sf fuel (Some x) [] fzero = Ok (fdiv (fadd fzero x) (dbl 1), []).
Proof.
  intros Hf. assert (S1 : it_fsum fuel (Some x) [] fzero = Ok (fadd fzero x, [])).
  { unfold it_fsum. rewrite each_again by auto. rewrite list_goes. reflexivity. }
  unfold it_sfmean. destruct sf.
  - rewrite S1. cbn [bindO fst snd]. rewrite distance_again by auto. reflexivity.
  - rewrite distance_again by auto. cbn [bindO fst snd]. rewrite S1. reflexivity.
Qed.
Lemma moments_first sf fuel x y l : (S (length l) < fuel)%nat -> is_double x -> finite x -> (Z.of_nat (length (x :: y :: l)) <= 2 ^ 53)%Z ->
  exists mu v, s_moments sf fuel (x :: y :: l) fzero = Ok (mu, v) /\ is_double mu /\ finite mu /\ dval mu = dval x /\ is_double v /\ finite v /\ dval v = 0.
Proof.
  intros Hf D F N. destruct (zero_plus x D F) as [F0 V0]. set (a := fadd fzero x) in *. assert (Da : is_double a) by (apply fadd_double; auto using fzero_double).
  destruct (by_one a Da F0) as [F1 V1]. set (mu := fdiv a (dbl 1)) in *. assert (Dm : is_double mu) by (apply fdiv_double; auto using dbl_double).
  rewrite V0 in V1. destruct (minus_same x mu D Dm F F1 (eq_sym V1)) as [F2 V2]. assert (D2 : is_double (fsub x mu)) by (apply fsub_double; auto).
  destruct (squared_zero _ D2 F2 V2) as [F3 V3]. assert (D3 : is_double (fsquare (fsub x mu))) by (unfold fsquare; apply fmul_double; auto).
  destruct (zero_plus _ D3 F3) as [F4 V4]. rewrite V3 in V4. assert (D4 : is_double (fadd fzero (fsquare (fsub x mu)))) by (apply fadd_double; auto using fzero_double).
  set (n := (Z.of_nat (length (x :: y :: l)) - 1)%Z).
  destruct (zero_by n _ ltac:(unfold n; cbn [length] in *; lia) D4 F4 V4) as [F5 V5].
  exists mu, (fdiv (fadd fzero (fsquare (fsub x mu))) (dbl n)). split.
  - unfold s_moments, of_stream. cbn [sit_make sit_read]. rewrite distance_some by (cbn; lia). cbn [bindO fst snd]. rewrite sfmean_once by lia. cbn [bindO fst snd].
    fold a mu. rewrite each_again by lia. rewrite list_goes. reflexivity.
  - repeat split; auto. apply fdiv_double; auto using dbl_double.
Qed.
End Doubles.

(** ** generating functions *)
Section Generated.
Context {F A : Type} (call : F -> option A * F).
Lemma after_S : forall k f, after call (S k) f = snd (call (after call k f)).
Proof. induction k as [|k IH]; intros f; [reflexivity|]. cbn [after] in *. apply IH. Qed.

Lemma g_copy_all fails : forall n k f, (forall j, (j < n)%nat -> fails (k + j)%nat = false) ->
  (forall j, (j < n)%nat -> result call j f <> None) ->
  exists l, g_copy_n call fails k n (Gen f None) = (Some l, Gen (after call n f) None) /\ length l = n /\
    forall j, (j < n)%nat -> nth_error l j = result call j f.
Proof.
  induction n as [|n IH]; intros k f Hk Hr; cbn [g_copy_n].
  - exists []. repeat split. intros; lia.
  - unfold gen_get. cbn [gval gfun]. pose proof (Hr O ltac:(lia)) as R0. unfold result in R0. cbn [after] in R0.
    destruct (call f) as [[x|] f1] eqn:E; [|now cbn in R0].
    pose proof (Hk O ltac:(lia)) as K0. rewrite Nat.add_0_r in K0. rewrite K0. unfold gen_inc. cbn [gval gfun].
    assert (Er : forall j, result call (S j) f = result call j f1) by (intros j; unfold result; cbn [after]; now rewrite E).
    destruct (IH (S k) f1) as (l & El & Ll & Hl).
    + intros j Hj. replace (S k + j)%nat with (k + S j)%nat by lia. apply Hk. lia.
    + intros j Hj. rewrite <- Er. apply Hr. lia.
    + rewrite El. exists (x :: l). cbn [after]. rewrite E. cbn [snd]. split; [reflexivity|]. split; [cbn; lia|].
      intros [|j] Hj; [unfold result; cbn; now rewrite E|]. cbn [nth_error]. rewrite Er. apply Hl. lia.
Qed.
Lemma g_copy_stops fails : forall n k f j, (j < n)%nat -> (forall i, (i < j)%nat -> fails (k + i)%nat = false /\ result call i f <> None) ->
  fails (k + j)%nat = true \/ result call j f = None -> exists v, g_copy_n call fails k n (Gen f None) = (None, Gen (after call (S j) f) v).
Proof.
  induction n as [|n IH]; intros k f j Hj Hb Hs; [lia|]. cbn [g_copy_n]. unfold gen_get. cbn [gval gfun].
  destruct j as [|j].
  - rewrite Nat.add_0_r in Hs. unfold result in Hs. cbn [after] in Hs |- *. destruct (call f) as [[x|] f1]; cbn [fst snd] in *; [|eexists; reflexivity].
    destruct Hs as [Hs|Hs]; [|discriminate]. rewrite Hs. eexists; reflexivity.
  - destruct (Hb O ltac:(lia)) as [K0 R0]. rewrite Nat.add_0_r in K0. unfold result in R0. cbn [after] in R0.
    assert (Er : forall i, result call (S i) f = result call i (snd (call f))) by reflexivity. cbn [after].
    destruct (call f) as [[x|] f1] eqn:E; [|now cbn in R0]. cbn [fst snd] in *. rewrite K0. unfold gen_inc. cbn [gval gfun].
    destruct (IH (S k) f1 j ltac:(lia)) as [v Ev].
    + intros i Hi. rewrite <- Er. replace (S k + i)%nat with (k + S i)%nat by lia. apply Hb. lia.
    + rewrite <- Er. replace (S k + j)%nat with (k + S j)%nat by lia. exact Hs.
    + rewrite Ev. exists v. reflexivity.
Qed.
End Generated.
