(** * RandomUniProofs: sampling without replacement is uniform up to the resolution of the draws. *)

From Coq Require Import ZArith List Bool Lia Floats.SpecFloat Reals Lra.
From Flocq Require Import Core Relative BinarySingleNaN.
From Verif Require Import Base Coerce Random RandomSpec RandomProofs StatsSpec RandomUniSpec.
From Verif Require StatsProofs.
Import ListNotations.
Open Scope R_scope.

Local Notation fex := (FLT_exp (-1074) 53).
Local Notation rnd := (round radix2 fex ZnearestE).

(** ** counting *)
Lemma filter_len_le {A} (P : A -> bool) l : (length (filter P l) <= length l)%nat.
Proof. induction l as [|a l IH]; simpl; [lia|]. destruct (P a); simpl; lia. Qed.

Lemma count_upper (P : nat -> bool) (A : R) K : 0 <= A -> (forall j, (j < K)%nat -> P j = true -> INR j < A) ->
  INR (length (filter P (seq 0 K))) <= A + 1.
Proof.
  intros HA. induction K as [|K IH]; intros H. { simpl. lra. }
  rewrite seq_S, filter_app, app_length. simpl. destruct (P K) eqn:E.
  - assert (H1 : INR K < A) by (apply H; auto). simpl. 
    assert (H2 : (length (filter P (seq 0 K)) <= K)%nat) by (etransitivity; [apply filter_len_le|rewrite seq_length; lia]).
    apply le_INR in H2. rewrite plus_INR. simpl. lra.
  - simpl. rewrite Nat.add_0_r. apply IH. intros; apply H; auto.
Qed.

Lemma count_all (P : nat -> bool) K : (forall j, (j < K)%nat -> P j = true) -> length (filter P (seq 0 K)) = K.
Proof.
  induction K as [|K IH]; intros H; [reflexivity|].
  rewrite seq_S, filter_app, app_length. simpl. rewrite (H K) by lia. simpl. rewrite IH by (intros; apply H; lia). lia.
Qed.

Lemma count_lower (P : nat -> bool) (B : R) K : B <= INR K -> (forall j, (j < K)%nat -> INR j < B -> P j = true) ->
  B <= INR (length (filter P (seq 0 K))).
Proof.
  induction K as [|K IH]; intros HB H. { simpl in *. lra. }
  destruct (Rle_lt_dec B (INR K)) as [E|E].
  - rewrite seq_S, filter_app, app_length, plus_INR. specialize (IH E).
    assert (0 <= INR (length (filter P [(0 + K)%nat]))) by apply pos_INR. 
    assert (B <= INR (length (filter P (seq 0 K)))) by (apply IH; intros; apply H; auto). lra.
  - rewrite count_all; [exact HB|]. intros j Hj. apply H; [exact Hj|]. apply Rle_lt_trans with (INR K); [apply le_INR; lia|exact E].
Qed.

Lemma filter_negb_len {A} (P : A -> bool) l : (length (filter P l) + length (filter (fun x => negb (P x)) l) = length l)%nat.
Proof. induction l as [|a l IH]; simpl; [reflexivity|]. destruct (P a); simpl; lia. Qed.

Lemma tuples_length K m : length (tuples K m) = (K ^ m)%nat.
Proof.
  induction m as [|m IH]; [reflexivity|]. cbn [tuples Nat.pow].
  assert (G : forall l : list nat, length (flat_map (fun j => map (cons j) (tuples K m)) l) = (length l * K ^ m)%nat).
  { induction l as [|j l IHl]; [reflexivity|]. simpl. now rewrite app_length, map_length, IHl, IH. }
  now rewrite G, seq_length.
Qed.

Lemma tuples_in K m : forall js, In js (tuples K m) -> Forall (fun j => (j < K)%nat) js.
Proof.
  induction m as [|m IH]; intros js Hj. { destruct Hj as [<-|[]]. constructor. }
  simpl in Hj. apply in_flat_map in Hj. destruct Hj as (j & H & Hj). apply in_map_iff in Hj. destruct Hj as (t & <- & Hj). apply in_seq in H.
  constructor; [lia|auto].
Qed.
Lemma filter_map_len {A B} (P : B -> bool) (f : A -> B) l : length (filter P (map f l)) = length (filter (fun x => P (f x)) l).
Proof. induction l as [|a l IH]; simpl; [reflexivity|]. destruct (P (f a)); simpl; lia. Qed.

(** The first draw decides which of two things has to happen later. *)
Lemma count_split K m (P : list nat -> bool) (sel : nat -> bool) (P1 P2 : list nat -> bool) :
  (forall j js, (j < K)%nat -> In js (tuples K m) -> P (j :: js) = if sel j then P1 js else P2 js) ->
  length (filter P (tuples K (S m))) =
  (length (filter sel (seq 0 K)) * length (filter P1 (tuples K m)) +
   (K - length (filter sel (seq 0 K))) * length (filter P2 (tuples K m)))%nat.
Proof.
  intros H. cbn [tuples].
  assert (G : forall l : list nat, (forall j, In j l -> (j < K)%nat) ->
    length (filter P (flat_map (fun j => map (cons j) (tuples K m)) l)) =
    (length (filter sel l) * length (filter P1 (tuples K m)) + length (filter (fun j => negb (sel j)) l) * length (filter P2 (tuples K m)))%nat).
  { induction l as [|j l IH]; intros Hl; [reflexivity|]. cbn [flat_map]. rewrite filter_app, app_length, filter_map_len, IH by (intros; apply Hl; now right).
    assert (E : filter (fun x => P (j :: x)) (tuples K m) = filter (fun x => if sel j then P1 x else P2 x) (tuples K m)).
    { apply filter_ext_in. intros js Hj. apply H; [apply Hl; now left|exact Hj]. }
    rewrite E. cbn [filter]. destruct (sel j); cbn [negb length]; cbv iota;
      [change (fun x => P1 x) with P1|change (fun x => P2 x) with P2]; rewrite Nat.mul_succ_l; lia. }
  rewrite G by (intros j Hj; apply in_seq in Hj; lia).
  pose proof (filter_negb_len sel (seq 0 K)) as E. rewrite seq_length in E. f_equal. f_equal. lia.
Qed.

(** ** one test *)
Lemma select_val n end_ t m u : (0 <= end_ - t <= 2 ^ 53)%Z -> (0 <= n - m <= 2 ^ 53)%Z -> unit_double u ->
  0 <= dval u < 1 /\ (select n end_ t m u = true <-> rnd (IZR (end_ - t) * dval u) < IZR (n - m)).
Proof.
  intros HN Hr Hu. destruct (unit_real u Hu) as (b & Hb & Hf & Hv).
  destruct (select_real n end_ t m u) as (v & Hv1 & Hv2 & Hs); [unfold W; lia|unfold W; lia|exact Hu|].
  specialize (Hv2 b Hb). rewrite !rnd_int in Hs by lia.
  assert (E : dval u = v) by (rewrite <- Hb, StatsProofs.dval_B2R; exact Hv2).
  rewrite E. split; [|exact Hs]. unfold last_below_one in *. pose proof (bpow_gt_0 radix2 (-53)). lra.
Qed.

Lemma select_sound n end_ t m u : (1 <= end_ - t <= 2 ^ 53)%Z -> (1 <= n - m <= end_ - t)%Z -> unit_double u ->
  if select n end_ t m u then dval u < IZR (n - m) / IZR (end_ - t)
  else IZR (n - m) / IZR (end_ - t) - roundoff <= dval u.
Proof.
  intros HN Hr Hu. destruct (select_val n end_ t m u) as (Hv & Hs); [lia|lia|exact Hu|].
  set (N := (end_ - t)%Z) in *. set (r := (n - m)%Z) in *.
  assert (HN1 : 1 <= IZR N) by (apply IZR_le; lia). assert (Hr1 : 1 <= IZR r) by (apply IZR_le; lia).
  assert (HrN : IZR r <= IZR N) by (apply IZR_le; lia).
  assert (Hq : IZR r / IZR N * IZR N = IZR r) by (field; lra).
  destruct (select n end_ t m u).
  - assert (H : rnd (IZR N * dval u) < IZR r) by now apply Hs.
    destruct (Rlt_le_dec (dval u) (IZR r / IZR N)) as [E|E]; [exact E|exfalso].
    assert (IZR r <= IZR N * dval u). { rewrite <- Hq. rewrite Rmult_comm. apply Rmult_le_compat_l; lra. }
    assert (rnd (IZR r) <= rnd (IZR N * dval u)) by now apply rnd_le.
    rewrite rnd_int in * by lia. lra.
  - assert (H : IZR r <= rnd (IZR N * dval u)). { destruct (Rlt_le_dec (rnd (IZR N * dval u)) (IZR r)) as [E|E]; [apply Hs in E; discriminate|exact E]. }
    set (x := IZR N * dval u) in *.
    assert (Hx0 : 0 <= x) by (apply Rmult_le_pos; lra).
    assert (Hx : /2 <= x).
    { destruct (Rlt_le_dec x (/2)) as [E|E]; [exfalso|exact E].
      assert (rnd x <= rnd (/2)) by (apply rnd_le; lra).
      assert (rnd (/2) = /2).
      { apply round_generic; [typeclasses eauto|]. change (/2) with (bpow radix2 (-1)). apply generic_format_bpow. unfold FLT_exp. simpl. lia. }
      lra. }
    pose proof (relative_error_N_FLT radix2 (-1074) 53 eq_refl (fun n => negb (Z.even n)) x) as E.
    change (round radix2 (FLT_exp (-1074) 53) (Znearest (fun n => negb (Z.even n))) x) with (rnd x) in E.
    rewrite (Rabs_pos_eq x Hx0) in E.
    assert (E1 : bpow radix2 (-1074 + 53 - 1) <= x).
    { apply Rle_trans with (2 := Hx). change (/2) with (bpow radix2 (-1)). apply bpow_le. lia. }
    specialize (E E1). apply Rabs_le_inv in E.
    assert (Er : /2 * bpow radix2 (-53 + 1) = roundoff).
    { unfold roundoff. rewrite bpow_powerRZ. change (IZR radix2) with 2. change (-53 + 1)%Z with (-52)%Z.
      change (powerRZ 2 (-53)) with (powerRZ 2 (-1 + -52)). rewrite (powerRZ_add 2 (-1) (-52)) by lra. f_equal. unfold powerRZ. cbn [Pos.to_nat]. unfold Pos.iter_op. rewrite pow_1. reflexivity. }
    change (bpow radix2 (Z.opp 53 + 1)) with (bpow radix2 (-53 + 1)) in E. rewrite Er in E.
    assert (Hu0 : 0 < roundoff) by (unfold roundoff; apply powerRZ_lt; lra).
    assert (Hx1 : x <= IZR N). { unfold x. rewrite <- (Rmult_1_r (IZR N)) at 2. apply Rmult_le_compat_l; lra. }
    assert (IZR r <= x + roundoff * IZR N). { assert (roundoff * x <= roundoff * IZR N) by (apply Rmult_le_compat_l; lra). lra. }
    assert (IZR r / IZR N * IZR N <= (dval u + roundoff) * IZR N). { rewrite Hq. unfold x in *. lra. }
    apply Rmult_le_reg_r in H1; lra.
Qed.

(** Of the [K] states of the generator, the share that selects differs little from (n-m)/(end-t). *)
Lemma select_share K d delta n end_ t m : even_draws K d delta -> (1 <= end_ - t <= 2 ^ 53)%Z -> (1 <= n - m <= end_ - t)%Z ->
  Rabs (INR (length (filter (fun j => select n end_ t m (d j)) (seq 0 K))) / INR K - IZR (n - m) / IZR (end_ - t)) <= delta + roundoff.
Proof.
  intros (HK & HD) HN Hr. set (q := IZR (n - m) / IZR (end_ - t)).
  assert (Hu0 : 0 < roundoff) by (unfold roundoff; apply powerRZ_lt; lra).
  assert (HN1 : 1 <= IZR (end_ - t)) by (apply IZR_le; lia). assert (Hr1 : 1 <= IZR (n - m)) by (apply IZR_le; lia).
  assert (HrN : IZR (n - m) <= IZR (end_ - t)) by (apply IZR_le; lia).
  assert (Hq0 : 0 < q) by (apply Rdiv_lt_0_compat; lra).
  assert (HK0 : 0 < INR K) by (apply Rlt_le_trans with (2 := HK); apply pow_lt; lra).
  assert (Hq1 : q <= 1). { unfold q. apply Rmult_le_reg_r with (IZR (end_ - t)); [lra|]. field_simplify; lra. }
  assert (HKu : 1 <= roundoff * INR K).
  { apply Rle_trans with (roundoff * 2 ^ 53); [|apply Rmult_le_compat_l; lra]. right. unfold roundoff.
    change (2 ^ 53) with (powerRZ 2 53). rewrite <- powerRZ_add by lra. reflexivity. }
  assert (Hd0 : 0 <= delta).
  { destruct K as [|K']; [simpl in HK0; lra|]. destruct (HD 0%nat) as (_ & H); [lia|]. pose proof (Rabs_pos (dval (d 0%nat) - INR 0 / INR (S K'))). lra. }
  set (s := INR (length (filter (fun j => select n end_ t m (d j)) (seq 0 K)))).
  assert (Hup : s <= (q + delta) * INR K + 1).
  { apply count_upper. { apply Rmult_le_pos; lra. }
    intros j Hj E. destruct (HD j Hj) as (Hu & Hc). pose proof (select_sound n end_ t m (d j) HN Hr Hu) as G. rewrite E in G. fold q in G.
    apply Rabs_le_inv in Hc. assert (INR j / INR K < q + delta) by lra.
    apply Rmult_lt_reg_r with (/ INR K); [now apply Rinv_0_lt_compat|]. replace ((q + delta) * INR K * / INR K) with (q + delta) by (field; lra). exact H. }
  assert (Hlo : (q - roundoff - delta) * INR K <= s).
  { apply count_lower. { rewrite <- (Rmult_1_l (INR K)) at 2. apply Rmult_le_compat_r; lra. }
    intros j Hj E. destruct (HD j Hj) as (Hu & Hc). pose proof (select_sound n end_ t m (d j) HN Hr Hu) as G. fold q in G.
    destruct (select n end_ t m (d j)); [reflexivity|exfalso]. apply Rabs_le_inv in Hc.
    assert (INR j / INR K < q - roundoff - delta).
    { apply Rmult_lt_reg_r with (INR K); [exact HK0|]. unfold Rdiv. rewrite Rmult_assoc, Rinv_l, Rmult_1_r by lra. exact E. }
    lra. }
  assert (Hs : s / INR K * INR K = s) by (field; lra).
  apply Rabs_le. split.
  - apply Rmult_le_reg_r with (INR K); [exact HK0|]. rewrite Rmult_minus_distr_r, Hs. lra.
  - apply Rmult_le_reg_r with (INR K); [exact HK0|]. rewrite Rmult_minus_distr_r, Hs. lra.
Qed.

(** ** the loop *)
Lemma wo_loop_acc fuel : forall draws k n e t m acc,
  wo_loop fuel draws k n e t m acc = match wo_loop fuel draws k n e t m [] with Ok (r, k') => Ok (acc ++ r, k') | o => o end.
Proof.
  induction fuel as [|f IH]; intros; cbn [wo_loop]; destruct (Z.ltb m n); try reflexivity; try (now rewrite app_nil_r).
  destruct (select n e t m (draws k)); [|apply IH].
  rewrite (IH _ _ _ _ _ _ (acc ++ [t])), (IH _ _ _ _ _ _ ([] ++ [t])). destruct (wo_loop f draws (S k) n e (w64 (t + 1)) (m + 1) []) as [[r k']| | | |]; auto.
  now rewrite <- app_assoc.
Qed.
Lemma wo_loop_shift fuel : forall draws k n e t m acc l,
  returned (wo_loop fuel draws (S k) n e t m acc) l = returned (wo_loop fuel (fun i => draws (S i)) k n e t m acc) l.
Proof.
  induction fuel as [|f IH]; intros; cbn [wo_loop]; destruct (Z.ltb m n); try reflexivity.
  destruct (select n e t m (draws (S k))); apply IH.
Qed.
Lemma wo_loop_from fuel : forall draws k n e t m r k', (0 <= t)%Z -> (t + Z.of_nat fuel < W)%Z ->
  wo_loop fuel draws k n e t m [] = Ok (r, k') -> forall x, In x r -> (t <= x)%Z.
Proof.
  induction fuel as [|f IH]; intros draws k n e t m r k' H0 H1 E x Hx; cbn [wo_loop] in E; destruct (Z.ltb m n); try discriminate;
    try (inversion E; subst; destruct Hx).
  assert (Ew : w64 (t + 1) = (t + 1)%Z) by (unfold w64; apply Z.mod_small; unfold W in *; lia). rewrite Ew in E.
  destruct (select n e t m (draws k)).
  - rewrite wo_loop_acc in E. destruct (wo_loop f draws (S k) n e (t + 1) (m + 1) []) as [[r1 k1]| | | |] eqn:E1; inversion E; subst.
    destruct Hx as [<-|Hx]; [lia|]. apply IH with (x := x) in E1; [lia|lia|lia|exact Hx].
  - apply IH with (x := x) in E; [lia|lia|lia|exact Hx].
Qed.
Lemma increasing_len l : forall a b, (a <= b)%Z -> increasing l -> (forall x, In x l -> (a <= x < b)%Z) -> (Z.of_nat (length l) <= b - a)%Z.
Proof.
  induction l as [|x l IH]; intros a b Hab Hi Hl. { simpl. lia. }
  destruct Hi as [H1 H2]. assert (Hx : (a <= x < b)%Z) by (apply Hl; now left).
  assert (Z.of_nat (length l) <= b - (x + 1))%Z. { apply IH; [lia|exact H2|]. intros y Hy. specialize (H1 _ Hy). assert (a <= y < b)%Z by (apply Hl; now right). lia. }
  cbn [length]. lia.
Qed.
Lemma increasing_head x l : increasing (x :: l) -> ~ In x l.
Proof. intros [H _] Hx. specialize (H _ Hx). lia. Qed.

Lemma returned_neq o l : (forall r k, o = Ok (r, k) -> r <> l) -> returned o l = false.
Proof. intros H. destruct o as [[r k]| | | |]; try reflexivity. simpl. destruct (list_eq_dec Z.eq_dec r l) as [E|]; [|reflexivity]. destruct (H r k eq_refl E). Qed.
Lemma filter_false {A} (l : list A) : filter (fun _ => false) l = [].
Proof. induction l; auto. Qed.

Lemma choose_step1 N r : (r <= N)%nat -> / C (S N) (S r) = INR (S r) / INR (S N) * / C N r.
Proof.
  intros H. unfold C. rewrite (Nat.sub_succ N r). rewrite !fact_simpl, !mult_INR.
  field. pose proof (INR_fact_neq_0 N). pose proof (INR_fact_neq_0 r). pose proof (INR_fact_neq_0 (N - r)).
  repeat split; auto; apply not_0_INR; lia.
Qed.
Lemma choose_step2 N r : (r <= N)%nat -> / C (S N) r = (1 - INR r / INR (S N)) * / C N r.
Proof.
  intros H. unfold C. replace (S N - r)%nat with (S (N - r)) by lia. rewrite !fact_simpl, !mult_INR.
  replace (INR (S (N - r))) with (INR (S N) - INR r) by (rewrite <- minus_INR by lia; f_equal; lia).
  pose proof (INR_fact_neq_0 N). pose proof (INR_fact_neq_0 r). pose proof (INR_fact_neq_0 (N - r)).
  assert (INR (S N) <> 0) by (apply not_0_INR; lia).
  assert (INR (S N) - INR r <> 0) by (rewrite <- minus_INR by lia; apply not_0_INR; lia).
  field. repeat split; auto.
Qed.

Lemma product_close p q P Q e1 e2 : 0 <= P <= 1 -> 0 <= q <= 1 -> Rabs (p - q) <= e1 -> Rabs (P - Q) <= e2 -> Rabs (p * P - q * Q) <= e1 + e2.
Proof.
  intros HP Hq H1 H2. replace (p * P - q * Q) with ((p - q) * P + q * (P - Q)) by ring.
  eapply Rle_trans; [apply Rabs_triang|]. rewrite !Rabs_mult, (Rabs_pos_eq P), (Rabs_pos_eq q) by lra.
  pose proof (Rabs_pos (p - q)). pose proof (Rabs_pos (P - Q)).
  apply Rplus_le_compat.
  - rewrite <- (Rmult_1_r e1). apply Rmult_le_compat; lra.
  - rewrite <- (Rmult_1_l e2). apply Rmult_le_compat; lra.
Qed.

Lemma loop_close K d delta n end_ : even_draws K d delta -> (end_ <= 2 ^ 53)%Z -> forall N t m l,
  (0 <= t)%Z -> (end_ - t = Z.of_nat N)%Z -> (0 <= m <= n)%Z -> Z.of_nat (length l) = (n - m)%Z ->
  increasing l -> (forall x, In x l -> (t <= x < end_)%Z) ->
  Rabs (INR (length (filter (fun js => returned (wo_loop N (fun k => d (nth k js 0%nat)) 0 n end_ t m []) l) (tuples K N))) / INR K ^ N
        - / C N (length l)) <= INR N * (delta + roundoff).
Proof.
  intros HD He. assert (HK : 0 < INR K). { destruct HD as [H _]. apply Rlt_le_trans with (2 := H). apply pow_lt; lra. }
  assert (HU : forall j, (j < K)%nat -> unit_double (d j)) by (intros j Hj; apply (proj2 HD j Hj)).
  assert (Heps : 0 <= delta + roundoff).
  { destruct HD as [_ HD]. destruct K as [|K']; [simpl in HK; lra|]. destruct (HD 0%nat) as (_ & H); [lia|].
    pose proof (Rabs_pos (dval (d 0%nat) - INR 0 / INR (S K'))). unfold roundoff. assert (0 < powerRZ 2 (-53)) by (apply powerRZ_lt; lra). lra. }
  induction N as [|N IH]; intros t m l Ht HN Hm Hl Hi Hb.
  - assert (l = []) by (destruct l as [|x l]; [reflexivity|specialize (Hb x (or_introl eq_refl)); lia]). subst l. simpl in Hl.
    cbn [tuples wo_loop]. replace (m <? n)%Z with false by (symmetry; apply Z.ltb_ge; lia). simpl. unfold C. simpl. 
    replace (1 / 1 - / (1 / (1 * 1))) with 0 by field. rewrite Rabs_R0. lra.
  - destruct (Z.eq_dec m n) as [->|Hmn].
    + assert (l = []) by (destruct l; [reflexivity|simpl in Hl; lia]). subst l.
      assert (E : filter (fun js => returned (wo_loop (S N) (fun k => d (nth k js 0%nat)) 0 n end_ t n []) []) (tuples K (S N)) = tuples K (S N)).
      { rewrite (filter_ext _ (fun _ => true)). { induction (tuples K (S N)) as [|a L IHL]; [reflexivity|]. simpl. now rewrite IHL. }
        intros js. cbn [wo_loop]. rewrite Z.ltb_irrefl. reflexivity. }
      rewrite E, tuples_length, pow_INR. replace (C (S N) (length (@nil Z))) with 1.
      * replace (INR K ^ S N / INR K ^ S N - / 1) with 0. { rewrite Rabs_R0. apply Rmult_le_pos; [apply pos_INR|exact Heps]. }
        assert (INR K ^ S N <> 0) by (apply pow_nonzero; lra). field. assumption.
      * unfold C. cbn [length]. rewrite Nat.sub_0_r. change (INR (fact 0)) with 1. pose proof (INR_fact_neq_0 (S N)). field. assumption.
    + destruct l as [|x l]; [simpl in Hl; lia|].
      assert (HlN : (Z.of_nat (length (x :: l)) <= end_ - t)%Z) by (apply increasing_len; auto; lia).
      assert (Hlt : (m <? n)%Z = true) by (apply Z.ltb_lt; lia).
      assert (Ew : w64 (t + 1) = (t + 1)%Z) by (unfold w64; apply Z.mod_small; unfold W; lia).
      assert (HS := select_share K d delta n end_ t m HD ltac:(lia) ltac:(lia)).
      set (sel := fun j => select n end_ t m (d j)) in *. set (s := length (filter sel (seq 0 K))) in *.
      assert (HsK : (s <= K)%nat) by (unfold s; etransitivity; [apply filter_len_le|rewrite seq_length; lia]).
      assert (Hr : IZR (n - m) / IZR (end_ - t) = INR (length (x :: l)) / INR (S N)) by (now rewrite <- Hl, HN, <- !INR_IZR_INZ).
      rewrite Hr in HS.
      assert (HSN : 0 < INR (S N)) by (apply lt_0_INR; lia).
      assert (Hlen : (length (x :: l) <= S N)%nat) by lia.
      assert (Hq : 0 <= INR (length (x :: l)) / INR (S N) <= 1).
      { split; [apply Rmult_le_pos; [apply pos_INR|left; now apply Rinv_0_lt_compat]|].
        apply Rmult_le_reg_r with (INR (S N)); [exact HSN|]. unfold Rdiv. rewrite Rmult_assoc, Rinv_l, Rmult_1_r, Rmult_1_l by lra. now apply le_INR. }
      assert (HP : forall P : list nat -> bool, 0 <= INR (length (filter P (tuples K N))) / INR K ^ N <= 1).
      { intros P. assert (0 < INR K ^ N) by (now apply pow_lt). split; [apply Rmult_le_pos; [apply pos_INR|left; now apply Rinv_0_lt_compat]|].
        apply Rmult_le_reg_r with (INR K ^ N); [assumption|]. unfold Rdiv. rewrite Rmult_assoc, Rinv_l, Rmult_1_r, Rmult_1_l by lra.
        rewrite <- pow_INR, <- tuples_length. apply le_INR, filter_len_le. }
      assert (HKN : INR K ^ N <> 0) by (apply pow_nonzero; lra).
      destruct (Z.eq_dec x t) as [->|Hxt].
      * rewrite (count_split K N _ sel (fun js => returned (wo_loop N (fun k => d (nth k js 0%nat)) 0 n end_ (t + 1) (m + 1) []) l) (fun _ => false)).
        2:{ intros j js Hj Hjs. cbn [wo_loop]. rewrite Hlt. cbn [nth]. unfold sel. rewrite Ew. destruct (select n end_ t m (d j)) eqn:Esel.
            - rewrite wo_loop_shift. cbn [nth]. rewrite wo_loop_acc. destruct (wo_loop N (fun i => d (nth i js 0%nat)) 0 n end_ (t + 1) (m + 1) []) as [[r k']| | | |]; try reflexivity.
              cbn [returned app]. destruct (list_eq_dec Z.eq_dec (t :: r) (t :: l)) as [E|E], (list_eq_dec Z.eq_dec r l) as [E'|E']; congruence.
            - apply returned_neq. intros r k E ->. eapply (wo_loop_from N) with (x := t) in E; [lia|lia|unfold W; lia|now left]. }
        rewrite filter_false. cbn [length]. rewrite Nat.mul_0_r, Nat.add_0_r, mult_INR. fold s.
        specialize (IH (t + 1)%Z (m + 1)%Z l). cbn [length] in *. rewrite choose_step1 by lia.
        assert (Hx := increasing_head _ _ Hi).
        match type of IH with _ -> _ -> _ -> _ -> _ -> _ -> Rabs (INR ?c / _ - _) <= _ => set (c1 := c) in * end.
        replace (INR s * INR c1 / INR K ^ S N) with (INR s / INR K * (INR c1 / INR K ^ N)) by (cbn [pow]; field; split; [assumption|lra]).
        replace (INR (S N) * (delta + roundoff)) with ((delta + roundoff) + INR N * (delta + roundoff)) by (rewrite S_INR; ring).
        apply product_close; [apply HP|exact Hq|exact HS|]. apply IH; try lia; [apply Hi|].
        intros y Hy. destruct Hi as [Hi1 _]. specialize (Hi1 _ Hy). assert (t <= y < end_)%Z by (apply Hb; now right). lia.
      * assert (Hx : (t < x)%Z) by (specialize (Hb x (or_introl eq_refl)); lia).
        assert (Hb' : forall y, In y (x :: l) -> (t + 1 <= y < end_)%Z).
        { intros y [<-|Hy]. { specialize (Hb x (or_introl eq_refl)). lia. } destruct Hi as [Hi1 _]. specialize (Hi1 _ Hy). assert (t <= y < end_)%Z by (apply Hb; now right). lia. }
        assert (HlN' : (Z.of_nat (length (x :: l)) <= end_ - (t + 1))%Z) by (apply increasing_len; auto; lia).
        rewrite (count_split K N _ sel (fun _ => false) (fun js => returned (wo_loop N (fun k => d (nth k js 0%nat)) 0 n end_ (t + 1) m []) (x :: l))).
        2:{ intros j js Hj Hjs. cbn [wo_loop]. rewrite Hlt. cbn [nth]. unfold sel. rewrite Ew. destruct (select n end_ t m (d j)) eqn:Esel.
            - apply returned_neq. intros r k E. rewrite wo_loop_acc in E. destruct (wo_loop N _ 1 n end_ (t + 1) (m + 1) []) as [[r' k']| | | |]; inversion E; subst. simpl. congruence.
            - rewrite wo_loop_shift. reflexivity. }
        rewrite filter_false. cbn [length]. rewrite Nat.mul_0_r, Nat.add_0_l, mult_INR. fold s.
        specialize (IH (t + 1)%Z m (x :: l)). cbn [length] in *. rewrite choose_step2 by lia.
        match type of IH with _ -> _ -> _ -> _ -> _ -> _ -> Rabs (INR ?c / _ - _) <= _ => set (c1 := c) in * end.
        rewrite minus_INR by exact HsK.
        replace ((INR K - INR s) * INR c1 / INR K ^ S N) with ((1 - INR s / INR K) * (INR c1 / INR K ^ N)) by (cbn [pow]; field; split; [assumption|lra]).
        replace (INR (S N) * (delta + roundoff)) with ((delta + roundoff) + INR N * (delta + roundoff)) by (rewrite (S_INR N); ring).
        apply product_close; [apply HP|lra| |].
        -- rewrite Rabs_minus_sym in HS. match goal with |- Rabs ?e <= _ => replace e with (INR (S (length l)) / INR (S N) - INR s / INR K) by ring end. exact HS.
        -- apply IH; try lia; auto.
Qed.

Theorem uniform_close K d delta n end_ l : even_draws K d delta -> (0 <= n)%Z -> (end_ <= 2 ^ 53)%Z -> (n < 2 ^ 60)%Z ->
  increasing l -> Z.of_nat (length l) = n -> (forall x, In x l -> (0 <= x < end_)%Z) -> (0 <= end_)%Z ->
  Rabs (probability K d n end_ l - / C (Z.to_nat end_) (Z.to_nat n)) <= IZR end_ * (delta + roundoff).
Proof.
  intros HD Hn He Hn60 Hi Hl Hb He0. unfold probability, favourable, sample_without_replacement.
  replace (2 ^ 60 - 1 <? n)%Z with false by (symmetry; apply Z.ltb_ge; lia).
  pose proof (loop_close K d delta n end_ HD He (Z.to_nat end_) 0 0 l) as H.
  rewrite <- Hl, Nat2Z.id, Hl. replace (IZR end_) with (INR (Z.to_nat end_)) by (rewrite INR_IZR_INZ, Z2Nat.id by lia; reflexivity).
  apply H; auto; lia.
Qed.


(** ** the probability of one index *)
Lemma included_shift fuel : forall draws k n e t m acc x,
  included (wo_loop fuel draws (S k) n e t m acc) x = included (wo_loop fuel (fun i => draws (S i)) k n e t m acc) x.
Proof.
  induction fuel as [|f IH]; intros; cbn [wo_loop]; destruct (Z.ltb m n); try reflexivity.
  destruct (select n e t m (draws (S k))); apply IH.
Qed.
Lemma mix_close p q P1 P2 A B e1 e2 : 0 <= p <= 1 -> Rabs (p - q) <= e1 -> Rabs (A - B) <= 1 -> Rabs (P1 - A) <= e2 -> Rabs (P2 - B) <= e2 ->
  Rabs (p * P1 + (1 - p) * P2 - (q * A + (1 - q) * B)) <= e1 + e2.
Proof.
  intros Hp H1 H2 H3 H4. replace (p * P1 + (1 - p) * P2 - (q * A + (1 - q) * B)) with ((p - q) * (A - B) + (p * (P1 - A) + (1 - p) * (P2 - B))) by ring.
  eapply Rle_trans; [apply Rabs_triang|]. apply Rplus_le_compat.
  - rewrite Rabs_mult. pose proof (Rabs_pos (p - q)). pose proof (Rabs_pos (A - B)). rewrite <- (Rmult_1_r e1). apply Rmult_le_compat; lra.
  - eapply Rle_trans; [apply Rabs_triang|]. rewrite !Rabs_mult, (Rabs_pos_eq p), (Rabs_pos_eq (1 - p)) by lra.
    pose proof (Rmult_le_compat_l p _ _ ltac:(lra) H3). pose proof (Rmult_le_compat_l (1 - p) _ _ ltac:(lra) H4). lra.
Qed.

Lemma index_close K d delta n end_ x : even_draws K d delta -> (end_ <= 2 ^ 53)%Z -> forall N t m,
  (0 <= t)%Z -> (end_ - t = Z.of_nat N)%Z -> (0 <= m <= n)%Z -> (n - m <= Z.of_nat N)%Z -> (t <= x < end_)%Z ->
  Rabs (INR (length (filter (fun js => included (wo_loop N (fun k => d (nth k js 0%nat)) 0 n end_ t m []) x) (tuples K N))) / INR K ^ N
        - IZR (n - m) / INR N) <= INR N * (delta + roundoff).
Proof.
  intros HD He. assert (HK : 0 < INR K). { destruct HD as [H _]. apply Rlt_le_trans with (2 := H). apply pow_lt; lra. }
  assert (HKn : (0 < K)%nat) by (destruct K; [simpl in HK; lra|lia]).
  assert (HU : forall j, (j < K)%nat -> unit_double (d j)) by (intros j Hj; apply (proj2 HD j Hj)).
  assert (HUn : forall N js, In js (tuples K N) -> forall k, unit_double (d (nth k js 0%nat))).
  { intros N js Hjs k. apply HU. destruct (Nat.lt_ge_cases k (length js)) as [E|E]; [|now rewrite nth_overflow].
    apply tuples_in in Hjs. rewrite Forall_forall in Hjs. apply Hjs, nth_In, E. }
  assert (Heps : 0 <= delta + roundoff).
  { destruct HD as [_ HD]. destruct (HD 0%nat) as (_ & H); [lia|].
    pose proof (Rabs_pos (dval (d 0%nat) - INR 0 / INR K)). unfold roundoff. assert (0 < powerRZ 2 (-53)) by (apply powerRZ_lt; lra). lra. }
  induction N as [|N IH]; intros t m Ht HN Hm Hr Hx; [lia|].
  destruct (Z.eq_dec m n) as [->|Hmn].
  { rewrite (filter_ext _ (fun _ => false)) by (intros js; cbn [wo_loop]; now rewrite Z.ltb_irrefl).
    rewrite filter_false. rewrite Z.sub_diag. cbn [length]. change (INR 0) with 0. unfold Rdiv. rewrite !Rmult_0_l, Rminus_0_r, Rabs_R0. apply Rmult_le_pos; [apply pos_INR|exact Heps]. }
  assert (Hlt : (m <? n)%Z = true) by (apply Z.ltb_lt; lia).
  assert (Ew : w64 (t + 1) = (t + 1)%Z) by (unfold w64; apply Z.mod_small; unfold W; lia).
  assert (HS := select_share K d delta n end_ t m HD ltac:(lia) ltac:(lia)).
  set (sel := fun j => select n end_ t m (d j)) in *. set (s := length (filter sel (seq 0 K))) in *.
  assert (HsK : (s <= K)%nat) by (unfold s; etransitivity; [apply filter_len_le|rewrite seq_length; lia]).
  rewrite HN, <- INR_IZR_INZ in HS.
  assert (HKN : INR K ^ N <> 0) by (apply pow_nonzero; lra).
  destruct (Z.eq_dec x t) as [->|Hxt].
  - rewrite (count_split K N _ sel (fun _ => true) (fun _ => false)).
    2:{ intros j js Hj Hjs. cbn [wo_loop]. rewrite Hlt. cbn [nth]. unfold sel. rewrite Ew. destruct (select n end_ t m (d j)) eqn:Esel.
        - rewrite included_shift. cbn [nth]. rewrite wo_loop_acc.
          destruct (wo_loop_ok (fun i => d (nth i js 0%nat)) (HUn N js Hjs) n end_ ltac:(unfold W; lia) N 0%nat (t + 1)%Z (m + 1)%Z [] ltac:(lia) ltac:(lia) ltac:(lia) ltac:(lia))
            as (r & k' & E & _). rewrite E. cbn. now rewrite Z.eqb_refl.
        - rewrite included_shift. cbn [nth]. destruct (wo_loop N (fun i => d (nth i js 0%nat)) 0 n end_ (t + 1) m []) as [[r k]| | | |] eqn:E; try reflexivity.
          simpl. apply not_true_is_false. intros E'. apply existsb_exists in E'. destruct E' as (y & Hy & Ey). apply Z.eqb_eq in Ey. subst y.
          eapply (wo_loop_from N) with (x := t) in E; [lia|lia|unfold W; lia|exact Hy]. }
    rewrite filter_false. cbn [length]. rewrite Nat.mul_0_r, Nat.add_0_r.
    assert (E : length (filter (fun _ : list nat => true) (tuples K N)) = (K ^ N)%nat).
    { rewrite <- tuples_length. clear. induction (tuples K N); simpl; auto. }
    rewrite E, mult_INR, pow_INR. fold s.
    replace (INR s * INR K ^ N / INR K ^ S N) with (INR s / INR K) by (cbn [pow]; field; split; [assumption|lra]).
    eapply Rle_trans; [exact HS|]. rewrite <- (Rmult_1_l (delta + roundoff)) at 1. apply Rmult_le_compat_r; [exact Heps|].
    change 1 with (INR 1). apply le_INR. lia.
  - assert (HN0 : (0 < N)%nat) by lia. assert (HN1 : 1 <= INR N) by (change 1 with (INR 1); apply le_INR; lia).
    assert (HSN : INR (S N) = INR N + 1) by apply S_INR.
    rewrite (count_split K N _ sel (fun js => included (wo_loop N (fun k => d (nth k js 0%nat)) 0 n end_ (t + 1) (m + 1) []) x)
                                   (fun js => included (wo_loop N (fun k => d (nth k js 0%nat)) 0 n end_ (t + 1) m []) x)).
    2:{ intros j js Hj Hjs. cbn [wo_loop]. rewrite Hlt. cbn [nth]. unfold sel. rewrite Ew. destruct (select n end_ t m (d j)) eqn:Esel.
        - rewrite included_shift. cbn [nth]. rewrite wo_loop_acc.
          destruct (wo_loop N (fun i => d (nth i js 0%nat)) 0 n end_ (t + 1) (m + 1) []) as [[r k]| | | |]; try reflexivity.
          simpl. now rewrite (proj2 (Z.eqb_neq x t)) by auto.
        - rewrite included_shift. reflexivity. }
    fold s. rewrite plus_INR, !mult_INR, minus_INR by exact HsK.
    pose proof (IH (t + 1)%Z (m + 1)%Z ltac:(lia) ltac:(lia) ltac:(lia) ltac:(lia) ltac:(lia)) as IH1.
    set (c1 := length (filter (fun js => included (wo_loop N (fun k => d (nth k js 0%nat)) 0 n end_ (t + 1) (m + 1) []) x) (tuples K N))) in *.
    set (c2 := length (filter (fun js => included (wo_loop N (fun k => d (nth k js 0%nat)) 0 n end_ (t + 1) m []) x) (tuples K N))) in *.
    replace ((INR s * INR c1 + (INR K - INR s) * INR c2) / INR K ^ S N)
      with (INR s / INR K * (INR c1 / INR K ^ N) + (1 - INR s / INR K) * (INR c2 / INR K ^ N)) by (cbn [pow]; field; split; [assumption|lra]).
    replace (INR (S N) * (delta + roundoff)) with ((delta + roundoff) + INR N * (delta + roundoff)) by (rewrite HSN; ring).
    assert (E1 : IZR (n - (m + 1)) = IZR (n - m) - 1) by (rewrite <- minus_IZR; f_equal; lia).
    rewrite E1 in IH1.
    destruct (Z.eq_dec (n - m) (Z.of_nat (S N))) as [Eq|Eq].
    + assert (Es : s = K).
      { unfold s. apply count_all. intros j Hj. unfold sel. apply select_forced; [unfold W; lia|unfold W; lia|auto]. }
      rewrite Es. replace (INR K / INR K) with 1 by (field; lra). rewrite Eq, <- INR_IZR_INZ in *.
      replace (1 * (INR c1 / INR K ^ N) + (1 - 1) * (INR c2 / INR K ^ N) - INR (S N) / INR (S N)) with (INR c1 / INR K ^ N - (INR (S N) - 1) / INR N).
      * lra.
      * rewrite HSN. assert (INR N + 1 <> 0) by lra. assert (INR N <> 0) by lra. field. repeat split; assumption.
    + pose proof (IH (t + 1)%Z m ltac:(lia) ltac:(lia) ltac:(lia) ltac:(lia) ltac:(lia)) as IH2. fold c2 in IH2.
      replace (IZR (n - m) / INR (S N)) with (IZR (n - m) / INR (S N) * ((IZR (n - m) - 1) / INR N) + (1 - IZR (n - m) / INR (S N)) * (IZR (n - m) / INR N))
        by (rewrite HSN; field; lra).
      apply mix_close; auto.
      * assert (INR s <= INR K) by now apply le_INR. split; [apply Rmult_le_pos; [apply pos_INR|left; now apply Rinv_0_lt_compat]|].
        apply Rmult_le_reg_r with (INR K); [exact HK|]. unfold Rdiv. rewrite Rmult_assoc, Rinv_l by lra. lra.
      * replace ((IZR (n - m) - 1) / INR N - IZR (n - m) / INR N) with (- / INR N) by (field; lra). rewrite Rabs_Ropp, Rabs_pos_eq.
        -- rewrite <- Rinv_1. apply Rinv_le_contravar; lra.
        -- left. apply Rinv_0_lt_compat. lra.
Qed.
Theorem index_uniform K d delta n end_ x : even_draws K d delta -> (0 <= n <= end_)%Z -> (end_ <= 2 ^ 53)%Z -> (0 <= x < end_)%Z ->
  Rabs (inclusion K d n end_ x - IZR n / IZR end_) <= IZR end_ * (delta + roundoff).
Proof.
  intros HD Hn He Hx. unfold inclusion, sample_without_replacement.
  replace (2 ^ 60 - 1 <? n)%Z with false by (symmetry; apply Z.ltb_ge; lia).
  pose proof (index_close K d delta n end_ x HD He (Z.to_nat end_) 0 0) as H. rewrite !Z.sub_0_r in H.
  replace (IZR end_) with (INR (Z.to_nat end_)) by (rewrite INR_IZR_INZ, Z2Nat.id by lia; reflexivity).
  apply H; lia.
Qed.
