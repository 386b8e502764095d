(** * DistUniform: the uniform index samples. *)

From Coq Require Import ZArith List Bool Lia.
From Verif Require Import Base Spec Lemmas Dist DistSpec DistCount.
Import ListNotations.
Open Scope Z_scope.

Local Opaque iota.
Local Notation W := (2 ^ 32).

(** ** the multiplication method, one output at a time *)
Fixpoint ndl (R t : Z) (l : list Z) : outcome (Z * list Z) :=
  match l with [] => Timeout | x :: l' => if x * R mod W <? t then ndl R t l' else Ok (x * R / W, l') end.
Lemma nd_while_eq R t l : forall p, nd_while R t p l = if p mod W <? t then ndl R t l else Ok (p / W, l).
Proof.
  induction l as [|x l IH]; intros p; cbn [nd_while ndl]; [reflexivity|]. destruct (p mod W <? t); [|reflexivity]. apply IH.
Qed.
Lemma nd_eq R l : 1 <= R < W -> nd R l = ndl R (W mod R) l.
Proof.
  intros HR. unfold nd. destruct l as [|x l]; cbn [next bindO fst snd ndl]; [reflexivity|].
  assert (E : (W - R) mod R = W mod R). { replace (W - R) with (W + (-1) * R) by lia. apply Z_mod_plus_full. }
  rewrite E. pose proof (Z.mod_pos_bound W R ltac:(lia)) as T.
  destruct (Z.ltb_spec (x * R mod W) R) as [H|H]; [apply nd_while_eq|]. destruct (Z.ltb_spec (x * R mod W) (W mod R)); [lia|reflexivity].
Qed.

(** Outputs that give [v] at once. *)
Definition hit (R v x : Z) : bool := negb (x * R mod W <? W mod R) && (x * R / W =? v).
Lemma hit_interval R v x : 1 <= R <= W -> hit R v x = ((v * W + W mod R + R - 1) / R <=? x) && (x <? (v * W + W mod R + R - 1) / R + W / R).
Proof.
  intros HR. unfold hit. pose proof (Z.div_mod W R ltac:(lia)) as E. pose proof (Z.mod_pos_bound W R ltac:(lia)) as T.
  pose proof (Z.div_mod (x * R) W ltac:(lia)) as Ex. pose proof (Z.mod_pos_bound (x * R) W ltac:(lia)) as Tx.
  set (q := W / R) in *. set (t := W mod R) in *. set (d := x * R / W) in *. set (m := x * R mod W) in *.
  pose proof (Z.div_mod (v * W + t + R - 1) R ltac:(lia)) as El. pose proof (Z.mod_pos_bound (v * W + t + R - 1) R ltac:(lia)) as Tl.
  set (lo := (v * W + t + R - 1) / R) in *. set (r := (v * W + t + R - 1) mod R) in *. clearbody q t d m lo r.
  destruct (Z.ltb_spec m t), (Z.eqb_spec d v), (Z.leb_spec lo x), (Z.ltb_spec x (lo + q)); cbn; try reflexivity; exfalso; nia.
Qed.
Lemma hit_count R v : 1 <= R <= W -> 0 <= v < R -> sum (fun x => ind (hit R v x)) (iota W) = W / R.
Proof.
  intros HR Hv. set (lo := (v * W + W mod R + R - 1) / R).
  pose proof (Z.div_mod W R ltac:(lia)) as E. pose proof (Z.mod_pos_bound W R ltac:(lia)) as T.
  assert (L0 : 0 <= lo) by (apply Z.div_pos; nia). assert (Q : 0 <= W / R) by (apply Z.div_pos; lia).
  assert (L1 : lo + W / R <= W).
  { unfold lo. pose proof (Z.div_mod (v * W + W mod R + R - 1) R ltac:(lia)) as El. pose proof (Z.mod_pos_bound (v * W + W mod R + R - 1) R ltac:(lia)) as Tl. nia. }
  replace (W / R) with (lo + W / R - lo) by lia. rewrite <- (count_interval W lo (lo + W / R)) by lia.
  apply sum_ext. intros x _. now rewrite hit_interval.
Qed.
Lemma quotient_range x R : 0 <= x < W -> 1 <= R -> 0 <= x * R / W < R.
Proof. intros Hx HR. split; [apply Z.div_pos; nia|apply Z.div_lt_upper_bound; nia]. Qed.
(** Rejected outputs. *)
Lemma reject_count R : 1 <= R <= W -> sum (fun x => ind (x * R mod W <? W mod R)) (iota W) = W mod R.
Proof.
  intros HR. pose proof (Z.div_mod W R ltac:(lia)) as E.
  assert (A : sum (fun x => ind (negb (x * R mod W <? W mod R))) (iota W) = R * (W / R)).
  { transitivity (sum (fun x => sum (fun v => ind (hit R v x)) (iota R)) (iota W)).
    - apply sum_ext. intros x Hx. rewrite in_iota in Hx. pose proof (quotient_range x R Hx ltac:(lia)) as Hq. unfold hit. destruct (x * R mod W <? W mod R); cbn [negb andb ind].
      + symmetry. now apply sum_zero.
      + rewrite <- (count_eq R (x * R / W) Hq). apply sum_ext. intros v _. now rewrite Z.eqb_sym.
    - rewrite sum_swap. rewrite (sum_ext _ (fun _ => W / R)). { rewrite sum_const, iota_length. lia. }
      intros v Hv. rewrite in_iota in Hv. now apply hit_count. }
  assert (B : sum (fun x => ind (x * R mod W <? W mod R) + ind (negb (x * R mod W <? W mod R))) (iota W) = W).
  { rewrite (sum_ext _ (fun _ => 1)). { rewrite sum_const, iota_length. lia. } intros x _. now destruct (x * R mod W <? W mod R). }
  rewrite sum_add in B. lia.
Qed.

(** ** indices up to 2^32 - 1 *)
Lemma small_eq b l : outputs l -> 0 <= b <= W - 1 -> small b l = ndl (b + 1) (W mod (b + 1)) l.
Proof.
  intros Ho Hb. unfold small. destruct (Z.ltb_spec b (W - 1)) as [H|H]; [apply nd_eq; lia|].
  assert (b = W - 1) by lia. subst b. destruct l as [|x l]; [reflexivity|]. inversion Ho; subst. cbn [ndl next].
  replace (W - 1 + 1) with W by lia. rewrite Z_mod_same_full. rewrite Z_mod_mult, Z_div_mult by lia. reflexivity.
Qed.
Lemma ndl_reader R t : prefix_reader (ndl R t).
Proof.
  intros s. induction s as [|x s IH]; intros v r H; cbn [ndl] in H; [discriminate|].
  destruct (x * R mod W <? t) eqn:C.
  - destruct (IH _ _ H) as (p & -> & K). exists (x :: p). split; [reflexivity|]. intros r'. cbn. rewrite C. apply K.
  - injection H as <- <-. exists [x]. split; [reflexivity|]. intros r'. cbn. now rewrite C.
Qed.
Lemma next_reader : prefix_reader next.
Proof. intros [|x s] v r H; cbn in H; [discriminate|]. injection H as <- <-. exists [x]. split; reflexivity. Qed.
Lemma nd_while_reader R t s : forall p v r, nd_while R t p s = Ok (v, r) -> exists q, s = q ++ r /\ forall r', nd_while R t p (q ++ r') = Ok (v, r').
Proof.
  intros p v r. rewrite nd_while_eq. intros H. destruct (p mod W <? t) eqn:C.
  - destruct (ndl_reader R t _ _ _ H) as (q & -> & K). exists q. split; [reflexivity|]. intros r'. rewrite nd_while_eq, C. apply K.
  - injection H as <- <-. exists []. split; [reflexivity|]. intros r'. rewrite nd_while_eq, C. reflexivity.
Qed.
Lemma small_reader b : prefix_reader (small b).
Proof.
  intros s v r H. unfold small in *. destruct (b <? W - 1); [|now apply next_reader]. unfold nd in *. destruct s as [|x s]; cbn [next bindO fst snd] in H; [discriminate|].
  destruct (x * (b + 1) mod W <? b + 1) eqn:C.
  - destruct (nd_while_reader _ _ _ _ _ _ H) as (q & -> & K). exists (x :: q). split; [reflexivity|]. intros r'. cbn [next bindO fst snd app]. rewrite C. apply K.
  - injection H as <- <-. exists [x]. split; [reflexivity|]. intros r'. cbn [next bindO fst snd app]. rewrite C. reflexivity.
Qed.
Lemma small_range b s v r : outputs s -> 0 <= b <= W - 1 -> small b s = Ok (v, r) -> 0 <= v <= b.
Proof.
  intros Ho Hb. rewrite small_eq by assumption. induction s as [|x s IH]; cbn [ndl]; intros H; [discriminate|]. inversion Ho; subst.
  destruct (x * (b + 1) mod W <? W mod (b + 1)); [now apply IH|]. injection H as <- _. pose proof (quotient_range x (b + 1)). lia.
Qed.
Lemma used_nil {A} eqb (v : A) D : D [] = Timeout -> sum (used eqb v D) (sequences 0) = 0.
Proof. intros H. cbn. unfold used. rewrite H. reflexivity. Qed.
Lemma small_hits b v n : 0 <= b <= W - 1 -> 0 <= v <= b ->
  sum (used Z.eqb v (small b)) (sequences (S n)) = (W mod (b + 1)) ^ Z.of_nat n * (W / (b + 1)).
Proof.
  intros Hb Hv. rewrite (sum_ext _ (used Z.eqb v (ndl (b + 1) (W mod (b + 1))))).
  2:{ intros s Hs. rewrite seq_outputs in Hs. unfold used. rewrite small_eq by tauto. reflexivity. }
  set (t := W mod (b + 1)). induction n as [|n IH].
  - rewrite sum_seq. cbn [sequences sum]. change (Z.of_nat 0) with 0. rewrite Z.pow_0_r, Z.mul_1_l. rewrite <- (hit_count (b + 1) v) by lia.
    apply sum_ext. intros x _. unfold used. cbn [ndl]. unfold hit. fold t. destruct (x * (b + 1) mod W <? t); cbn; lia.
  - rewrite sum_seq. rewrite (sum_ext _ (fun x => (t ^ Z.of_nat n * (W / (b + 1))) * ind (x * (b + 1) mod W <? t))).
    { rewrite sum_scal. unfold t. rewrite reject_count by lia. fold t. rewrite Nat2Z.inj_succ, Z.pow_succ_r by lia. ring. }
    intros x _. destruct (x * (b + 1) mod W <? t) eqn:C; cbn [ind].
    + rewrite Z.mul_1_r, <- IH. apply sum_ext. intros s _. unfold used. cbn [ndl]. now rewrite C.
    + rewrite Z.mul_0_r. apply sum_zero. intros s Hs. rewrite seq_outputs in Hs. destruct Hs as [L _]. unfold used. cbn [ndl]. rewrite C. destruct s; [discriminate|reflexivity].
Qed.
Lemma small_nil b : small b [] = Timeout.
Proof. unfold small, nd. destruct (b <? W - 1); reflexivity. Qed.
Lemma small_same b v v' n : 0 <= b <= W - 1 -> 0 <= v <= b -> 0 <= v' <= b -> sum (used Z.eqb v (small b)) (sequences n) = sum (used Z.eqb v' (small b)) (sequences n).
Proof. intros Hb Hv Hv'. destruct n as [|n]; [rewrite !used_nil by apply small_nil; reflexivity|]. now rewrite !small_hits. Qed.

(** ** larger indices: rounds of two numbers *)
Definition round (b : Z) : list Z -> outcome ((Z * Z) * list Z) := then_ (small (b / W)) next.
Lemma then_reader {A B} (D : list Z -> outcome (A * list Z)) (E : list Z -> outcome (B * list Z)) : prefix_reader D -> prefix_reader E -> prefix_reader (then_ D E).
Proof.
  intros HD HE s v r H. unfold then_ in H. destruct (D s) as [[x r1]| | | |] eqn:E1; try discriminate. cbn [bindO fst snd] in H.
  destruct (E r1) as [[y r2]| | | |] eqn:E2; try discriminate. cbn [bindO fst snd] in H. injection H as <- <-.
  destruct (HD _ _ _ E1) as (p & -> & K). destruct (HE _ _ _ E2) as (p' & -> & K'). exists (p ++ p'). split; [now rewrite app_assoc|].
  intros r'. rewrite <- app_assoc. unfold then_. rewrite K. cbn [bindO fst snd]. rewrite K'. reflexivity.
Qed.
Lemma round_reader b : prefix_reader (round b).
Proof. apply then_reader; [apply small_reader|apply next_reader]. Qed.
Lemma round_shorter b s v r : round b s = Ok (v, r) -> (length r < length s)%nat.
Proof.
  unfold round, then_. intros H. destruct (small (b / W) s) as [[x r1]| | | |] eqn:E1; try discriminate. cbn [bindO fst snd] in H.
  destruct (small_reader _ _ _ _ E1) as (p & -> & _). destruct r1 as [|y r1]; cbn in H; [discriminate|]. injection H as _ <-. rewrite app_length. cbn. lia.
Qed.
Lemma round_range b s h x r : outputs s -> W <= b < 2 ^ 64 -> round b s = Ok ((h, x), r) -> 0 <= h <= b / W /\ 0 <= x < W /\ outputs r.
Proof.
  intros Ho Hb H. unfold round, then_ in H. destruct (small (b / W) s) as [[x' r1]| | | |] eqn:E1; try discriminate. cbn [bindO fst snd] in H.
  assert (Hd : 0 <= b / W <= W - 1) by (split; [apply Z.div_pos; lia|]; assert (b / W < W) by (apply Z.div_lt_upper_bound; lia); lia).
  pose proof (small_range _ _ _ _ Ho Hd E1) as R1. destruct (small_reader _ _ _ _ E1) as (p & -> & _). apply Forall_app in Ho. destruct Ho as [_ Ho].
  destruct r1 as [|y r1]; cbn in H; [discriminate|]. injection H as -> -> <-. inversion Ho; subst. auto.
Qed.
Lemma large_step f b l : outputs l -> W <= b < 2 ^ 64 ->
  large (S f) b l = match round b l with
                    | Ok ((h, x), r) => if b <? W * h + x then large f b r else Ok (W * h + x, r)
                    | Throw e => Throw e | Abort => Abort | UB => UB | Timeout => Timeout
                    end.
Proof.
  intros Ho Hb. cbn [large]. unfold round, then_. destruct (small (b / W) l) as [[h r1]| | | |] eqn:E1; try reflexivity. cbn [bindO fst snd].
  destruct r1 as [|x r]; [reflexivity|]. cbn [next bindO fst snd].
  assert (Rr : round b l = Ok ((h, x), r)) by (unfold round, then_; rewrite E1; reflexivity).
  destruct (round_range b l h x r Ho Hb Rr) as (Hh & Hx & _). assert (b / W < W) by (apply Z.div_lt_upper_bound; lia).
  assert (Hh2 : W * h + x < 2 ^ 64) by (change (2 ^ 64) with (W * W); nia). assert (Hh1 : 0 <= W * h) by nia. rewrite (w64_small (W * h)), (w64_small (W * h + x)) by (change Base.W with (2 ^ 64); lia). destruct (Z.ltb_spec (W * h + x) (W * h)); [lia|]. rewrite orb_false_r. reflexivity.
Qed.
Lemma large_fuel b f : forall f' l, outputs l -> W <= b < 2 ^ 64 -> (length l < f)%nat -> (length l < f')%nat -> large f b l = large f' b l.
Proof.
  induction f as [|f IH]; intros f' l Ho Hb Hf Hf'; [lia|]. destruct f' as [|f']; [lia|]. rewrite !large_step by assumption.
  destruct (round b l) as [[[h x] r]| | | |] eqn:E; try reflexivity. destruct (b <? W * h + x); [|reflexivity].
  pose proof (round_shorter _ _ _ _ E). destruct (round_range b l h x r Ho Hb E) as (_ & _ & Hr). apply IH; auto; lia.
Qed.
(** The unfolded loop. *)
Lemma uniform_step b l : outputs l -> W <= b < 2 ^ 64 ->
  uniform_int b l = match round b l with
                    | Ok ((h, x), r) => if b <? W * h + x then uniform_int b r else Ok (W * h + x, r)
                    | Throw e => Throw e | Abort => Abort | UB => UB | Timeout => Timeout
                    end.
Proof.
  intros Ho Hb. unfold uniform_int. destruct (Z.leb_spec b (W - 1)); [lia|]. rewrite large_step by assumption.
  destruct (round b l) as [[[h x] r]| | | |] eqn:E; try reflexivity. destruct (b <? W * h + x); [|reflexivity].
  pose proof (round_shorter _ _ _ _ E). destruct (round_range b l h x r Ho Hb E) as (_ & _ & Hr). apply large_fuel; auto; lia.
Qed.

Lemma uniform_range b s v r : outputs s -> 0 <= b < 2 ^ 64 -> uniform_int b s = Ok (v, r) -> 0 <= v <= b.
Proof.
  intros Ho Hb. destruct (Z.leb_spec b (W - 1)) as [Sm|La].
  { unfold uniform_int. destruct (Z.leb_spec b (W - 1)); [|lia]. apply small_range; auto; lia. }
  remember (length s) as n eqn:En. revert s Ho En. induction n as [n IH] using lt_wf_ind. intros s Ho En. rewrite uniform_step by (auto; lia).
  destruct (round b s) as [[[h x] r1]| | | |] eqn:E; try discriminate. pose proof (round_shorter _ _ _ _ E). destruct (round_range b s h x r1 Ho ltac:(lia) E) as (Hh & Hx & Hr).
  destruct (Z.ltb_spec b (W * h + x)); [eapply IH; [|exact Hr|reflexivity]; lia|]. intros Q. injection Q as <- <-. lia.
Qed.

(** ** the numbers of sequences *)
Lemma large_raw f b l : large (S f) b l = match round b l with
                    | Ok ((h, x), r) => if (b <? w64 (w64 (W * h) + x)) || (w64 (w64 (W * h) + x) <? w64 (W * h)) then large f b r else Ok (w64 (w64 (W * h) + x), r)
                    | Throw e => Throw e | Abort => Abort | UB => UB | Timeout => Timeout
                    end.
Proof. cbn [large]. unfold round, then_. destruct (small (b / W) l) as [[h r1]| | | |] eqn:E1; try reflexivity. cbn [bindO fst snd]. destruct r1 as [|x r]; reflexivity. Qed.
Lemma large_reader b : forall f s v r, (length s < f)%nat -> large f b s = Ok (v, r) -> exists p, s = p ++ r /\ forall f' r', (length (p ++ r') < f')%nat -> large f' b (p ++ r') = Ok (v, r').
Proof.
  induction f as [|f IH]; intros s v r Hf H; [lia|]. rewrite large_raw in H. destruct (round b s) as [[[h x] r1]| | | |] eqn:E; try discriminate.
  pose proof (round_shorter _ _ _ _ E). destruct (round_reader _ _ _ _ E) as (p & -> & K).
  destruct ((b <? w64 (w64 (W * h) + x)) || (w64 (w64 (W * h) + x) <? w64 (W * h))) eqn:C.
  - destruct (IH r1 v r ltac:(lia) H) as (p' & -> & K'). exists (p ++ p'). split; [now rewrite app_assoc|]. intros f' r' Hf'. rewrite <- app_assoc in *.
    destruct f' as [|f']; [lia|]. rewrite large_raw, K, C. apply K'. pose proof (round_shorter _ _ _ _ (K (p' ++ r'))). lia.
  - injection H as <- <-. exists p. split; [reflexivity|]. intros f' r' Hf'. destruct f' as [|f']; [lia|]. rewrite large_raw, K, C. reflexivity.
Qed.
Lemma uniform_reader b : prefix_reader (uniform_int b).
Proof.
  intros s v r. unfold uniform_int. destruct (b <=? W - 1); [apply small_reader|]. intros H.
  destruct (large_reader b _ _ _ _ (Nat.lt_succ_diag_r _) H) as (p & -> & K). exists p. split; [reflexivity|]. intros r'. apply K. lia.
Qed.

Definition rejr (b : Z) (s : list Z) : outcome (unit * list Z) :=
  match round b s with Ok ((h, x), r) => if b <? W * h + x then Ok (tt, r) else Timeout | _ => Timeout end.
Lemma rejr_reader b : prefix_reader (rejr b).
Proof.
  intros s v r H. unfold rejr in H. destruct (round b s) as [[[h x] r1]| | | |] eqn:E; try discriminate. destruct (b <? W * h + x) eqn:C; [|discriminate]. injection H as <- <-.
  destruct (round_reader _ _ _ _ E) as (p & -> & K). exists p. split; [reflexivity|]. intros r'. unfold rejr. rewrite K, C. reflexivity.
Qed.
Definition ueqb (_ _ : unit) := true.
Lemma used_large b v s : outputs s -> W <= b < 2 ^ 64 -> 0 <= v <= b ->
  used Z.eqb v (uniform_int b) s = used (peqb Z.eqb Z.eqb) (v / W, v mod W) (round b) s + used (peqb ueqb Z.eqb) (tt, v) (then_ (rejr b) (uniform_int b)) s.
Proof.
  intros Ho Hb Hv. unfold used, then_, rejr. rewrite uniform_step by assumption. destruct (round b s) as [[[h x] r]| | | |] eqn:E; try reflexivity.
  destruct (round_range b s h x r Ho Hb E) as (Hh & Hx & _).
  pose proof (Z.div_mod v W ltac:(lia)) as Ev. pose proof (Z.mod_pos_bound v W ltac:(lia)) as Tv.
  destruct (Z.ltb_spec b (W * h + x)) as [C|C]; cbn [bindO fst snd].
  - assert (Nv : peqb Z.eqb Z.eqb (h, x) (v / W, v mod W) = false). { unfold peqb. cbn [fst snd]. destruct (Z.eqb_spec h (v / W)), (Z.eqb_spec x (v mod W)); try reflexivity. exfalso. nia. }
    cbn [yields]. rewrite Nv. destruct r; cbn [ind]; destruct (uniform_int b _) as [[y [|]]| | | |]; reflexivity.
  - cbn [yields]. destruct r; [|reflexivity]. rewrite Z.add_0_r. f_equal. unfold peqb. cbn [fst snd].
    destruct (Z.eqb_spec h (v / W)), (Z.eqb_spec x (v mod W)), (Z.eqb_spec (W * h + x) v); try reflexivity; exfalso; try nia.
Qed.
Lemma next_hits v n : 0 <= v < W -> sum (used Z.eqb v next) (sequences n) = ind (Nat.eqb n 1).
Proof.
  intros Hv. destruct n as [|n]; [reflexivity|]. rewrite sum_seq. destruct n as [|n].
  - cbn [sequences sum]. change (ind (Nat.eqb 1 1)) with 1. rewrite <- (count_eq W v) by lia. apply sum_ext. intros x _. unfold used. cbn. lia.
  - apply sum_zero. intros x _. apply sum_zero. intros s Hs. rewrite seq_outputs in Hs. destruct s; [destruct Hs; discriminate|reflexivity].
Qed.
Lemma uniform_same b v v' n : 0 <= b < 2 ^ 64 -> 0 <= v <= b -> 0 <= v' <= b ->
  sum (used Z.eqb v (uniform_int b)) (sequences n) = sum (used Z.eqb v' (uniform_int b)) (sequences n).
Proof.
  intros Hb Hv Hv'. destruct (Z.leb_spec b (W - 1)) as [Sm|La].
  { assert (E : forall w, sum (used Z.eqb w (uniform_int b)) (sequences n) = sum (used Z.eqb w (small b)) (sequences n)).
    { intros w. apply sum_ext. intros s _. unfold used, uniform_int. destruct (Z.leb_spec b (W - 1)); [reflexivity|lia]. }
    rewrite !E. apply small_same; lia. }
  assert (Hd : 0 <= b / W <= W - 1) by (split; [apply Z.div_pos; lia|]; assert (b / W < W) by (apply Z.div_lt_upper_bound; lia); lia).
  assert (Q : forall w, 0 <= w <= b -> 0 <= w / W <= b / W) by (intros w Hw; split; [apply Z.div_pos; lia|apply Z.div_le_mono; lia]).
  assert (Q' : forall w, 0 <= w mod W < W) by (intros w; apply Z.mod_pos_bound; lia).
  induction n as [n IH] using lt_wf_ind.
  assert (E : forall w, 0 <= w <= b -> sum (used Z.eqb w (uniform_int b)) (sequences n)
     = sum (fun j => sum (used Z.eqb (w / W) (small (b / W))) (sequences j) * ind (Nat.eqb (n - j) 1)) (seq 0 (S n))
     + sum (fun j => sum (used ueqb tt (rejr b)) (sequences j) * sum (used Z.eqb w (uniform_int b)) (sequences (n - j))) (seq 0 (S n))).
  { intros w Hw. rewrite <- convolve by (apply rejr_reader || apply uniform_reader).
    rewrite (sum_ext (fun j => _ * ind _) (fun j => sum (used Z.eqb (w / W) (small (b / W))) (sequences j) * sum (used Z.eqb (w mod W) next) (sequences (n - j)))).
    2:{ intros j _. now rewrite next_hits. }
    rewrite <- convolve by (apply small_reader || apply next_reader). rewrite <- sum_add. apply sum_ext. intros s Hs. rewrite seq_outputs in Hs. apply used_large; tauto || lia. }
  rewrite (E v), (E v') by assumption. f_equal.
  - apply sum_ext. intros j _. f_equal. apply small_same; auto.
  - apply sum_ext. intros j Hj. apply in_seq in Hj. destruct j as [|j].
    + rewrite used_nil; [lia|]. unfold rejr, round, then_. rewrite small_nil. reflexivity.
    + f_equal. apply IH. lia.
Qed.

(** Several samples. *)
Lemma draws_same b n k : 0 <= b < 2 ^ 64 -> forall vs vs', length vs = k -> length vs' = k -> Forall (fun v => 0 <= v <= b) vs -> Forall (fun v => 0 <= v <= b) vs' ->
  sum (used (list_eqb Z.eqb) vs (draws (uniform_int b) k)) (sequences n) = sum (used (list_eqb Z.eqb) vs' (draws (uniform_int b) k)) (sequences n).
Proof.
  intros Hb. revert n. induction k as [|k IH]; intros n vs vs' L L' F F'.
  { destruct vs, vs'; try discriminate. reflexivity. }
  destruct vs as [|v vs]; [discriminate|]. destruct vs' as [|v' vs']; [discriminate|]. inversion F; inversion F'; subst.
  rewrite !draws_count by apply uniform_reader. apply sum_ext. intros j _. f_equal; [now apply uniform_same|]. apply IH; auto.
Qed.

(** ** sequences that decide nothing yet *)
Definition open_ (r : outcome (Z * list Z)) : bool := match r with Timeout => true | _ => false end.
Lemma small_cases b s : outputs s -> 0 <= b <= W - 1 -> small b s = Timeout \/ exists v r, small b s = Ok (v, r).
Proof.
  intros Ho Hb. rewrite small_eq by assumption. induction s as [|x s IH]; cbn [ndl]; [now left|]. inversion Ho; subst.
  destruct (x * (b + 1) mod W <? W mod (b + 1)); [now apply IH|]. right. eauto.
Qed.
Lemma uniform_cases b s : outputs s -> 0 <= b < 2 ^ 64 -> uniform_int b s = Timeout \/ exists v r, uniform_int b s = Ok (v, r).
Proof.
  intros Ho Hb. destruct (Z.leb_spec b (W - 1)) as [Sm|La].
  { unfold uniform_int. destruct (Z.leb_spec b (W - 1)); [|lia]. apply small_cases; auto; lia. }
  remember (length s) as n eqn:En. revert s Ho En. induction n as [n IH] using lt_wf_ind. intros s Ho En. rewrite uniform_step by (auto; lia).
  assert (Hd : 0 <= b / W <= W - 1) by (split; [apply Z.div_pos; lia|]; assert (b / W < W) by (apply Z.div_lt_upper_bound; lia); lia).
  destruct (round b s) as [[[h x] r1]| | | |] eqn:E.
  2-5: unfold round, then_ in E; destruct (small_cases (b / W) s Ho Hd) as [E1|(v & r & E1)]; rewrite E1 in E; cbn [bindO fst snd] in E; try discriminate; try (destruct r; discriminate); now left.
  pose proof (round_shorter _ _ _ _ E). destruct (round_range b s h x r1 Ho ltac:(lia) E) as (Hh & Hx & Hr).
  destruct (Z.ltb_spec b (W * h + x)); [eapply IH; [|exact Hr|reflexivity]; lia|]. right; eauto.
Qed.
Definition TO (b : Z) (n : nat) : Z := sum (fun s => ind (open_ (uniform_int b s))) (sequences n).
Lemma TO_nonneg b n : 0 <= TO b n.
Proof. apply sum_nonneg. intros s _. destruct (open_ _); cbn; lia. Qed.
Lemma one_output : sum (fun _ => 1) (sequences 1) = W.
Proof. rewrite sum_const, seq_total. reflexivity. Qed.
Lemma TO_mono b n : 0 <= b < 2 ^ 64 -> TO b (S n) <= W * TO b n.
Proof.
  intros Hb. transitivity (sum (fun s => ind (open_ (uniform_int b (firstn n s))) * (fun _ => 1) (skipn n s)) (sequences (S n))).
  - apply sum_le. intros s Hs. rewrite seq_outputs in Hs. destruct Hs as [L Ho]. rewrite Z.mul_1_r.
    assert (Ho' : outputs (firstn n s)). { rewrite <- (firstn_skipn n s) in Ho. now apply Forall_app in Ho. }
    destruct (uniform_cases b (firstn n s) Ho' Hb) as [->|(v & r & E)]; [cbn [open_ ind]; destruct (open_ _); cbn; lia|].
    destruct (uniform_reader b _ _ _ E) as (p & Ep & K). assert (Es : s = p ++ (r ++ skipn n s)) by (rewrite app_assoc, <- Ep; symmetry; apply firstn_skipn).
    rewrite E. rewrite Es, K. cbn. lia.
  - rewrite (sum_split (fun s => ind (open_ (uniform_int b s))) (fun _ => 1)) by lia. replace (S n - n)%nat with 1%nat by lia. rewrite one_output. fold (TO b n). lia.
Qed.
Lemma small_rej b x s : 0 <= b <= W - 1 -> outputs (x :: s) -> small b (x :: s) = if x * (b + 1) mod W <? W mod (b + 1) then small b s else Ok (x * (b + 1) / W, s).
Proof. intros Hb Ho. rewrite !small_eq by (assumption || now inversion Ho). reflexivity. Qed.

Lemma TO_small b n : 0 <= b <= W - 1 -> TO b (S n) = (W mod (b + 1)) * TO b n.
Proof.
  intros Hb. unfold TO. rewrite sum_seq. rewrite (sum_ext _ (fun x => sum (fun s => ind (open_ (uniform_int b s))) (sequences n) * ind (x * (b + 1) mod W <? W mod (b + 1)))).
  { rewrite sum_scal, reject_count by lia. lia. }
  intros x Hx. rewrite in_iota in Hx. assert (U : forall s, uniform_int b s = small b s) by (intros s; unfold uniform_int; destruct (Z.leb_spec b (W - 1)); [reflexivity|lia]).
  rewrite Z.mul_comm, <- sum_scal. apply sum_ext. intros s Hs. rewrite seq_outputs in Hs. rewrite !U, small_rej by (auto || (constructor; tauto)).
  destruct (x * (b + 1) mod W <? W mod (b + 1)); cbn [ind open_]; lia.
Qed.

Lemma TO_large b n : W <= b < 2 ^ 64 -> TO b (S (S n)) <= (W mod (b / W + 1) + W / (b / W + 1)) * (W * TO b n).
Proof.
  intros Hb. set (c := b / W). assert (Hd : 0 <= c <= W - 1) by (split; [apply Z.div_pos; lia|]; assert (b / W < W) by (apply Z.div_lt_upper_bound; lia); unfold c; lia).
  unfold TO at 1. rewrite sum_seq.
  transitivity (sum (fun x => (W * TO b n) * (ind (x * (c + 1) mod W <? W mod (c + 1)) + ind (hit (c + 1) c x))) (iota W)).
  2:{ rewrite sum_scal, sum_add, reject_count, hit_count by lia. lia. }
  apply sum_le. intros x Hx. rewrite in_iota in Hx. pose proof (TO_nonneg b n) as T0.
  destruct (x * (c + 1) mod W <? W mod (c + 1)) eqn:C.
  - transitivity (TO b (S n)).
    + apply sum_le. intros s Hs. rewrite seq_outputs in Hs. rewrite !uniform_step by (lia || tauto || (constructor; tauto)).
      unfold round, then_. fold c. rewrite small_rej by (auto || (constructor; tauto)). rewrite C. lia.
    + pose proof (TO_mono b n ltac:(lia)). unfold hit. rewrite C. cbn [negb andb ind]. nia.
  - unfold hit. rewrite C. cbn [negb andb ind]. rewrite sum_seq.
    pose proof (quotient_range x (c + 1) Hx ltac:(lia)) as Hq. set (h := x * (c + 1) / W) in *.
    assert (St : forall y s, 0 <= y < W -> In s (sequences n) -> uniform_int b (x :: y :: s) = if b <? W * h + y then uniform_int b s else Ok (W * h + y, s)).
    { intros y s Hy Hs. rewrite seq_outputs in Hs. assert (Ho : outputs (x :: y :: s)) by (constructor; [assumption|constructor; tauto]).
      rewrite uniform_step by (auto; lia). unfold round, then_. fold c. rewrite small_rej by (auto; lia). rewrite C. cbn [bindO fst snd next]. reflexivity. }
    destruct (Z.eqb_spec h c) as [Eh|Nh]; cbn [ind].
    + rewrite Z.mul_1_r. replace (W * TO b n) with (sum (fun _ : Z => TO b n) (iota W)) by (rewrite sum_const, iota_length; lia).
      apply sum_le. intros y Hy. rewrite in_iota in Hy. apply sum_le. intros s Hs. rewrite St by assumption. destruct (b <? W * h + y); [lia|]. cbn. destruct (open_ _); cbn; lia.
    + rewrite Z.mul_0_r. apply Z.eq_le_incl. apply sum_zero. intros y Hy. rewrite in_iota in Hy. apply sum_zero. intros s Hs. rewrite St by assumption.
      destruct (Z.ltb_spec b (W * h + y)); [|reflexivity]. exfalso. pose proof (Z.div_mod b W ltac:(lia)) as Eb. fold c in Eb. pose proof (Z.mod_pos_bound b W ltac:(lia)). nia.
Qed.
Lemma TO_step b n : 0 <= b < 2 ^ 64 -> TO b (S (S n)) <= 3 * 2 ^ 62 * TO b n.
Proof.
  intros Hb. pose proof (TO_nonneg b n) as T0. destruct (Z.leb_spec b (W - 1)) as [Sm|La].
  - rewrite !TO_small by lia. pose proof (Z.div_mod W (b + 1) ltac:(lia)) as E. pose proof (Z.mod_pos_bound W (b + 1) ltac:(lia)) as T.
    assert (Q : 1 <= W / (b + 1)) by (apply Z.div_le_lower_bound; lia). set (t := W mod (b + 1)) in *. assert (Ht : t < 2 ^ 31) by nia.
    rewrite Z.mul_assoc. apply Z.mul_le_mono_nonneg_r; [assumption|]. nia.
  - etransitivity; [apply TO_large; lia|]. rewrite Z.mul_assoc. apply Z.mul_le_mono_nonneg_r; [assumption|].
    assert (Hc : 1 <= b / W < W) by (split; [apply Z.div_le_lower_bound; lia|apply Z.div_lt_upper_bound; lia]). set (R := b / W + 1). assert (HR : 2 <= R <= W) by (unfold R; lia). clearbody R.
    pose proof (Z.div_mod W R ltac:(lia)) as E. pose proof (Z.mod_pos_bound W R ltac:(lia)) as T. assert (Q : 1 <= W / R) by (apply Z.div_le_lower_bound; lia).
    change (3 * 2 ^ 62) with (3 * 2 ^ 30 * W). apply Z.mul_le_mono_nonneg_r; [lia|]. destruct (Z.leb_spec R (2 ^ 30)).
    + assert (W / R <= 2 ^ 31) by (apply Z.div_le_upper_bound; nia). lia.
    + assert (W / R < 4) by (apply Z.div_lt_upper_bound; nia). nia.
Qed.
Lemma TO_bound b k : 0 <= b < 2 ^ 64 -> TO b (2 * k) <= (3 * 2 ^ 62) ^ Z.of_nat k.
Proof.
  intros Hb. induction k as [|k IH]; [cbn; destruct (open_ _); cbn; lia|]. replace (2 * S k)%nat with (S (S (2 * k))) by lia.
  etransitivity; [apply TO_step; exact Hb|]. rewrite Nat2Z.inj_succ, Z.pow_succ_r by lia. apply Z.mul_le_mono_nonneg_l; [lia|exact IH].
Qed.
