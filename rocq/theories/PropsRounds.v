(** C68: the numbers of rounds chosen for Poseidon. *)
From Coq Require Import ZArith List Bool Arith Lia.
From Verif Require Import Base FieldM CryptoM RoundsM RoundsP Demo PropLib.
Import ListNotations.
Open Scope Z_scope.

(** Under the criterion [att] the pair is secure, and no smaller number of partial rounds is. *)
Definition secure (att : attack) (full partial : nat) : Prop := att (mkRounds full partial) = Ok false.
Definition attackable (att : attack) (full partial : nat) : Prop := att (mkRounds full partial) = Ok true.
Definition thriftiest (att : attack) (full partial : nat) : Prop :=
  secure att full partial /\ forall p, (p < partial)%nat -> attackable att full p.

(** The inner search finds the least secure number of partial rounds, for every criterion, and only that. *)
Theorem C68_partial_search : forall att full n,
  (thriftiest att full n -> forall fuel, (n < fuel)%nat -> secure_partial_rounds_unpadded fuel att full = Ok n) /\
  (forall fuel, secure_partial_rounds_unpadded fuel att full = Ok n -> thriftiest att full n).
Proof.
  intros att full n. split.
  - intros H fuel Hf. exact (partial_loop_complete att full n fuel 0 H Hf).
  - intros fuel H. apply (partial_loop_sound att full fuel 0 n); [lia|exact H].
Qed.
Print Assumptions C68_partial_search.

(** The outer search returns an even number of full rounds, at least 6, that uses no more S-boxes than any smaller even
    choice and fewer than the next one. *)
Theorem C68_search : forall att width fuel pfuel r, secure_num_rounds_unpadded fuel pfuel att width = Ok r ->
  exists d, r_full r = (6 + 2 * d)%nat /\ thriftiest att (r_full r) (r_partial r) /\
  (forall i p, (i <= d)%nat -> thriftiest att (6 + 2 * i) p ->
     (r_full r * width + r_partial r <= (6 + 2 * i) * width + p)%nat) /\
  (exists p, thriftiest att (r_full r + 2) p /\ (r_full r * width + r_partial r < (r_full r + 2) * width + p)%nat).
Proof.
  intros att width fuel pfuel r H. unfold secure_num_rounds_unpadded in H.
  destruct (secure_partial_rounds_unpadded pfuel att 6) as [p| |] eqn:E; cbn [obind] in H; try discriminate.
  apply C68_partial_search in E. exact (rounds_loop_sound att width pfuel fuel 6 p r E H).
Qed.
Print Assumptions C68_search.

(** For the exponentiation S-boxes and at least two lanes the outer search always stops at 6 full rounds, with this
    number of partial rounds. *)
Theorem C68_exponentiation : forall t1 t2a t2b width fuel pfuel, (2 <= width)%nat -> (1 <= fuel)%nat ->
  let partial := Z.to_nat (Z.max (Z.max (t1 - 5) (t2a - 5)) (t2b + 1 - 6 * (Z.of_nat width - 1))) in
  (partial < pfuel)%nat ->
  secure_num_rounds_unpadded fuel pfuel (is_attackable_exponentiation t1 t2a t2b width) width = Ok (mkRounds 6 partial).
Proof.
  intros t1 t2a t2b width fuel pfuel Hw Hf partial Hp.
  set (att := is_attackable_exponentiation t1 t2a t2b width).
  assert (H1 : (1 <= width)%nat) by lia.
  pose proof (least_exp_spec t1 t2a t2b width H1) as L. fold att in L.
  assert (E6 : least_exp t1 t2a t2b width 6 = partial) by (unfold least_exp, partial; f_equal; lia).
  unfold secure_num_rounds_unpadded, secure_partial_rounds_unpadded. rewrite (partial_loop_complete att 6 partial pfuel 0); [|rewrite <- E6; apply L|exact Hp].
  cbn [obind]. rewrite Nat.add_0_l, <- E6.
  pose proof (rounds_loop_complete att width (least_exp t1 t2a t2b width) pfuel L 0 fuel 6) as R. cbn [Nat.mul] in R. rewrite Nat.add_0_r in R. apply R.
  - intros i Hi. assert (i = 0)%nat by lia. subst i. cbn [Nat.mul]. rewrite Nat.add_0_r. cbn [Nat.add].
    assert (least_exp t1 t2a t2b width 8 <= least_exp t1 t2a t2b width 6)%nat by (unfold least_exp; lia). lia.
  - lia.
  - cbn [Nat.add]. apply Nat2Z.inj_lt. rewrite !(sboxes_exp t1 t2a t2b width H1). lia.
  - lia.
Qed.
Print Assumptions C68_exponentiation.

(** For the inverse S-box, with the logarithms compared exactly, the search stops at 6 full rounds for every number of lanes: the result is the
    least secure number of partial rounds, at most m + 1, and every secure choice with more full rounds has more S-boxes. *)
Theorem C68_inverse : forall m width fuel pfuel, (1 <= width)%nat -> (1 <= fuel)%nat -> (m + 1 < pfuel)%nat ->
  let att := is_attackable_inverse_exact m width in
  exists p, secure_num_rounds_unpadded fuel pfuel att width = Ok (mkRounds 6 p) /\ thriftiest att 6 p /\ (p <= m + 1)%nat /\
    forall d p', secure att (6 + 2 * d) p' -> (6 * width + p <= (6 + 2 * d) * width + p')%nat.
Proof.
  intros m width fuel pfuel Hw Hf Hp att. exists (least_inv m width 6). destruct (least_inv_spec m width Hw 6 ltac:(lia)) as [L6 B6]. fold att in L6.
  split; [|split; [exact L6|split; [lia|]]].
  - unfold secure_num_rounds_unpadded, secure_partial_rounds_unpadded. rewrite (partial_loop_complete att 6 (least_inv m width 6) pfuel 0 L6) by lia.
    cbn [obind]. rewrite Nat.add_0_l. destruct fuel as [|fuel]; [lia|]. cbn [secure_num_rounds_loop]. unfold secure_partial_rounds_unpadded.
    destruct (least_inv_spec m width Hw 8 ltac:(lia)) as [L8 B8]. change (6 + 2)%nat with 8%nat. rewrite (partial_loop_complete att 8 (least_inv m width 8) pfuel 0 L8) by lia.
    cbn [obind]. rewrite Nat.add_0_l. pose proof (sboxes_inv m width Hw 6 ltac:(lia)) as S. change (6 + 2)%nat with 8%nat in S. rewrite (proj2 (Nat.ltb_lt _ _) S). reflexivity.
  - assert (I : forall d, (6 * width + least_inv m width 6 <= (6 + 2 * d) * width + least_inv m width (6 + 2 * d))%nat).
    { induction d as [|d IH]; [rewrite Nat.mul_0_r, Nat.add_0_r; lia|]. pose proof (sboxes_inv m width Hw (6 + 2 * d) ltac:(lia)) as S. unfold num_sboxes in S. cbn [r_full r_partial] in S.
      replace (6 + 2 * Datatypes.S d)%nat with (6 + 2 * d + 2)%nat by lia. lia. }
    intros d p' S. specialize (I d). destruct (least_inv_spec m width Hw (6 + 2 * d) ltac:(lia)) as [[_ M] _].
    destruct (Nat.le_gt_cases (least_inv m width (6 + 2 * d)) p') as [L|L]; [lia|]. specialize (M p' L). unfold secure, att in S. congruence.
Qed.
Print Assumptions C68_inverse.

(** For every number of lanes the search succeeds, and what it returns has the least number of S-boxes among all secure
    choices with at least 6 full rounds. *)
Theorem C68_terminates : forall t1 t2a t2b width, (1 <= width)%nat ->
  exists N, forall fuel pfuel, (N <= fuel)%nat -> (N <= pfuel)%nat ->
  exists r, secure_num_rounds_unpadded fuel pfuel (is_attackable_exponentiation t1 t2a t2b width) width = Ok r.
Proof.
  intros t1 t2a t2b width Hw. set (att := is_attackable_exponentiation t1 t2a t2b width).
  pose proof (least_exp_spec t1 t2a t2b width Hw) as L. fold att in L. set (least := least_exp t1 t2a t2b width) in *.
  pose (cost := fun f => num_sboxes width (mkRounds f (least f))).
  assert (D : exists d, (forall i, (i < d)%nat -> (cost (6 + 2 * i + 2) <= cost (6 + 2 * i))%nat) /\ (cost (6 + 2 * d) < cost (6 + 2 * d + 2))%nat).
  { assert (K : forall n k, (cost (6 + 2 * k) <= n + 6 + 2 * k)%nat -> exists d, (forall i, (k <= i < d)%nat -> (cost (6 + 2 * i + 2) <= cost (6 + 2 * i))%nat) /\ (cost (6 + 2 * d) < cost (6 + 2 * d + 2))%nat).
    { assert (LB : forall f, (f <= cost f)%nat) by (intro f; unfold cost, num_sboxes; cbn [r_full r_partial]; nia).
      induction n as [n IH] using lt_wf_ind. intros k Hk.
      destruct (le_lt_dec (cost (6 + 2 * k + 2)%nat) (cost (6 + 2 * k)%nat)) as [C|C].
      - pose proof (LB (6 + 2 * k + 2)%nat). destruct (IH (n - 2)%nat ltac:(lia) (k + 1)%nat) as (d & D1 & D2).
        + replace (6 + 2 * (k + 1))%nat with (6 + 2 * k + 2)%nat by lia. lia.
        + exists d. split; [|exact D2]. intros i Hi. destruct (Nat.eq_dec i k) as [->|]; [exact C|apply D1; lia].
      - exists k. split; [intros i Hi; lia|exact C]. }
    destruct (K (cost 6%nat) 0%nat) as (d & D1 & D2); [cbn [Nat.mul]; rewrite Nat.add_0_r; lia|]. exists d. split; [intros i Hi; apply D1; lia|exact D2]. }
  destruct D as (d & D1 & D2).
  exists (d + 1 + least 6%nat)%nat. intros fuel pfuel Hf Hp.
  assert (MON : forall f, (6 <= f)%nat -> (least f <= least 6)%nat) by (intros f Hf6; unfold least, least_exp; nia).
  exists (mkRounds (6 + 2 * d) (least (6 + 2 * d)%nat)). unfold secure_num_rounds_unpadded, secure_partial_rounds_unpadded.
  rewrite (partial_loop_complete att 6 (least 6%nat) pfuel 0); [|apply L|lia]. cbn [obind]. rewrite Nat.add_0_l.
  apply (rounds_loop_complete att width least pfuel L d fuel 6); [|exact D1|exact D2|lia].
  intros i Hi. specialize (MON (6 + 2 * i + 2)%nat ltac:(lia)). lia.
Qed.
Print Assumptions C68_terminates.

Theorem C68_minimal : forall t1 t2a t2b width fuel pfuel r, (1 <= width)%nat ->
  secure_num_rounds_unpadded fuel pfuel (is_attackable_exponentiation t1 t2a t2b width) width = Ok r ->
  forall full partial, (6 <= full)%nat -> secure (is_attackable_exponentiation t1 t2a t2b width) full partial ->
  (r_full r * width + r_partial r <= full * width + partial)%nat.
Proof.
  intros t1 t2a t2b width fuel pfuel r Hw H full partial Hf Hs.
  destruct (C68_search _ _ _ _ _ H) as (d & _ & _ & M & _).
  specialize (M 0%nat (least_exp t1 t2a t2b width 6) ltac:(lia) (least_exp_spec t1 t2a t2b width Hw 6)).
  apply (secure_exp t1 t2a t2b width Hw) in Hs. pose proof (sboxes_exp t1 t2a t2b width Hw 6) as E.
  unfold num_sboxes in E. cbn [r_full r_partial] in E. change (6 + 2 * 0)%nat with 6%nat in M.
  assert (Z.of_nat (6 * width + least_exp t1 t2a t2b width 6) <= Z.of_nat (full * width + partial)); [|lia].
  rewrite E, Nat2Z.inj_add, Nat2Z.inj_mul. destruct Hs as (S1 & S2 & S3). apply Z.max_lub; [nia|apply Z.max_lub; nia].
Qed.
Print Assumptions C68_minimal.

(** The margin of 7.5 percent, computed in double precision, is the exact product rounded to the nearest integer (halves
    upwards), for all numbers below 2^46;
    two further full rounds are added. *)
Theorem C68_padding : forall fuel pfuel att width r, secure_num_rounds_unpadded fuel pfuel att width = Ok r ->
  Z.of_nat (r_partial r) < 2 ^ 46 ->
  secure_num_rounds_padded fuel pfuel att width =
    Ok (mkRounds (r_full r + 2) (Z.to_nat ((1075 * Z.of_nat (r_partial r) + 500) / 1000))).
Proof.
  intros fuel pfuel att width r H Hn. unfold secure_num_rounds_padded. rewrite H. cbn [obind]. do 2 f_equal.
  apply Nat2Z.inj. rewrite (pad_exact _ Hn). set (N := Z.of_nat (r_partial r)). assert (0 <= N) by lia.
  rewrite Z2Nat.id by (apply Z.div_pos; lia).
  replace (1075 * N + 500) with (25 * (43 * N + 20)) by ring. replace 1000 with (25 * 40) by reflexivity.
  rewrite Z.div_mul_cancel_l by lia. reflexivity.
Qed.
Print Assumptions C68_padding.

(** The rounds finally used satisfy the criterion they were chosen by. *)
Theorem C68_padded_secure : forall t1 t2a t2b width fuel pfuel r, (1 <= width)%nat ->
  t1 < 2 ^ 45 -> t2a < 2 ^ 45 -> t2b < 2 ^ 45 ->
  secure_num_rounds_padded fuel pfuel (is_attackable_exponentiation t1 t2a t2b width) width = Ok r ->
  secure (is_attackable_exponentiation t1 t2a t2b width) (r_full r) (r_partial r).
Proof.
  intros t1 t2a t2b width fuel pfuel r Hw B1 B2 B3 H.
  destruct (secure_num_rounds_unpadded fuel pfuel (is_attackable_exponentiation t1 t2a t2b width) width) as [u| |] eqn:E;
    [|unfold secure_num_rounds_padded in H; rewrite E in H; discriminate..].
  destruct (C68_search _ _ _ _ _ E) as (d & Hd & T & _).
  assert (P : r_partial u = least_exp t1 t2a t2b width (r_full u)) by (apply (least_unique _ _ _ _ T), (least_exp_spec t1 t2a t2b width Hw)).
  assert (B : Z.of_nat (r_partial u) < 2 ^ 46) by (rewrite P; unfold least_exp; assert (0 <= (Z.of_nat width - 1) * Z.of_nat (r_full u)) by nia; lia).
  rewrite (C68_padding _ _ _ _ _ E B) in H. assert (R : r = mkRounds (r_full u + 2) (Z.to_nat ((1075 * Z.of_nat (r_partial u) + 500) / 1000))) by congruence. rewrite R. cbn [r_full r_partial]. destruct T as [T _].
  apply (secure_exp t1 t2a t2b width Hw) in T. apply (secure_exp t1 t2a t2b width Hw). set (N := Z.of_nat (r_partial u)) in *.
  assert (M : N <= (1075 * N + 500) / 1000) by (apply Z.div_le_lower_bound; lia).
  set (M1 := (1075 * N + 500) / 1000) in *. assert (M0 : 0 <= M1) by lia. rewrite !Nat2Z.inj_add, (Z2Nat.id M1 M0). rewrite Nat2Z.inj_add in T. fold N in T.
  destruct T as (T1 & T2 & T3). split; [lia|split; [lia|nia]].
Qed.
Print Assumptions C68_padded_secure.

Theorem C68_inverse_padded_secure : forall m width fuel pfuel r, (1 <= width)%nat -> Z.of_nat m < 2 ^ 45 ->
  secure_num_rounds_padded fuel pfuel (is_attackable_inverse_exact m width) width = Ok r ->
  secure (is_attackable_inverse_exact m width) (r_full r) (r_partial r).
Proof.
  intros m width fuel pfuel r Hw B H.
  destruct (secure_num_rounds_unpadded fuel pfuel (is_attackable_inverse_exact m width) width) as [u| |] eqn:E;
    [|unfold secure_num_rounds_padded in H; rewrite E in H; discriminate..].
  destruct (C68_search _ _ _ _ _ E) as (d & Hd & T & _).
  destruct (least_inv_spec m width Hw (r_full u) ltac:(lia)) as [L LB].
  assert (P : r_partial u = least_inv m width (r_full u)) by (apply (least_unique _ _ _ _ T), L).
  assert (B' : Z.of_nat (r_partial u) < 2 ^ 46) by (rewrite P; lia).
  rewrite (C68_padding _ _ _ _ _ E B') in H. assert (R : r = mkRounds (r_full u + 2) (Z.to_nat ((1075 * Z.of_nat (r_partial u) + 500) / 1000))) by congruence.
  rewrite R. cbn [r_full r_partial]. destruct T as [T _]. apply (secure_inv m width Hw) in T. apply (secure_inv m width Hw). set (N := Z.of_nat (r_partial u)) in *.
  assert (M : N <= (1075 * N + 500) / 1000) by (apply Z.div_le_lower_bound; lia).
  set (M1 := (1075 * N + 500) / 1000) in *. assert (M0 : 0 <= M1) by lia. rewrite Nat2Z.inj_add, (Z2Nat.id M1 M0).
  destruct T as (T1 & T2). set (W := Z.of_nat width) in *. assert (1 <= W) by (unfold W; lia). split; [|nia].
  eapply Z.lt_le_trans; [exact T1|]. apply Z.mul_le_mono_nonneg; try (apply Z.pow_nonneg; lia); apply Z.pow_le_mono_r; lia.
Qed.
Print Assumptions C68_inverse_padded_secure.

(** The options of the builder: a matrix is required, rounds and security level exclude each other, and 128 bits are
    the default. *)
Theorem C68_build : forall (F : Field) fuel pfuel att width sbox mds,
  (forall nr sec, poseidon_build_full fuel pfuel att width sbox nr sec None = Panic) /\
  (forall s r b, poseidon_build_full fuel pfuel att width (Some s) (Some r) (Some b) (Some mds) = Panic) /\
  (forall s r, poseidon_build_full fuel pfuel att width (Some s) (Some r) None (Some mds) =
     poseidon_build width (r_full r, r_partial r) (Some s) (Some mds)) /\
  (forall s, poseidon_build_full fuel pfuel att width (Some s) None None (Some mds) =
     poseidon_build_full fuel pfuel att width (Some s) None (Some 128%nat) (Some mds)) /\
  (forall s b r, secure_num_rounds_padded fuel pfuel (att s b) width = Ok r ->
     poseidon_build_full fuel pfuel att width (Some s) None (Some b) (Some mds) =
     poseidon_build width (r_full r, r_partial r) (Some s) (Some mds)).
Proof.
  intros F fuel pfuel att width sbox mds. repeat split.
  intros s b r H. unfold poseidon_build_full. cbn [ounwrap obind]. rewrite H. reflexivity.
Qed.
Print Assumptions C68_build.

(** x^5, width 3, 128 bits: the right hand sides are log_5 2 * 128 + log2 3 = 56.7, 26.88 and 16.92.  The search gives 6
    full and 51 partial rounds, padded to 8 and 55; one partial round fewer is attackable. *)
Example C68_example :
  secure_num_rounds_unpadded 1 60 (is_attackable_exponentiation 56 26 16 3) 3 = Ok (mkRounds 6 51) /\
  secure_num_rounds_padded 1 60 (is_attackable_exponentiation 56 26 16 3) 3 = Ok (mkRounds 8 55) /\
  attackable (is_attackable_exponentiation 56 26 16 3) 6 50 /\ pad_partial 20 = 22%nat /\
  secure_num_rounds_unpadded 1 130 (is_attackable_inverse_exact 128 3) 3 = Ok (mkRounds 6 121).
Proof. repeat split; vm_compute; reflexivity. Qed.
