(** The orbit of the linear congruential generator of lcg.rs and the rejection loop of next_biguint. *)
From Coq Require Import ZArith List Bool Arith Lia Znumtheory.
From Verif Require Import Base FieldM CryptoM BitsP ArithP.
Import ListNotations.
Open Scope Z_scope.

(** ** The orbit over the integers *)
Definition mult : Z := 1664525.
Definition incr : Z := 1013904223.
Definition affine (m : nat) (x : Z) : Z := Nat.iter m (fun y => mult * y + incr) x.

Fixpoint geo (m : nat) : Z := match m with O => 0 | S k => mult * geo k + 1 end.

Lemma affine_geo m x : affine m x = x + geo m * ((mult - 1) * x + incr).
Proof.
  induction m as [|m IH]; [unfold affine; cbn; lia|]. unfold affine in *. cbn [Nat.iter nat_rect geo] in *. 
  change (nat_rect _ x _ m) with (Nat.iter m (fun y => mult * y + incr) x). rewrite IH. ring.
Qed.

Lemma affine_plus m n x : affine (m + n) x = affine m (affine n x).
Proof. unfold affine, Nat.iter. induction m as [|m IH]; cbn [nat_rect Nat.add]; [reflexivity|]. rewrite IH. reflexivity. Qed.

Lemma mult_odd x : exists k, (mult - 1) * x + incr = 2 * k + 1.
Proof. exists (832262 * x + 506952111). unfold mult, incr. lia. Qed.

Lemma pow_mult m : exists k, mult ^ Z.of_nat m = 4 * k + 1.
Proof.
  induction m as [|m [k IH]]; [exists 0; reflexivity|]. rewrite Nat2Z.inj_succ, Z.pow_succ_r by lia. rewrite IH.
  exists (mult * k + 416131). unfold mult. lia.
Qed.

Lemma geo_plus m n : geo (m + n) = mult ^ Z.of_nat m * geo n + geo m.
Proof.
  induction m as [|m IH]; [cbn [Nat.add geo]; change (mult ^ Z.of_nat 0) with 1; lia|].
  cbn [Nat.add geo]. rewrite IH, Nat2Z.inj_succ, Z.pow_succ_r by lia. ring.
Qed.

Lemma geo_double m : exists k, geo (2 * m) = 2 * (2 * k + 1) * geo m.
Proof.
  destruct (pow_mult m) as [k E]. exists k. replace (2 * m)%nat with (m + m)%nat by lia. rewrite geo_plus, E. ring.
Qed.

Lemma geo_parity m : exists k, geo m = 2 * k + Z.of_nat m.
Proof.
  induction m as [|m [k IH]]; [exists 0; reflexivity|]. cbn [geo]. rewrite IH. 
  exists (mult * k + 832262 * Z.of_nat m). unfold mult. lia.
Qed.

(** Exactly as many factors 2 in the geometric sum as in its length. *)
Lemma geo_pow v m : exists k, geo (2 ^ v * m) = 2 ^ Z.of_nat v * (2 * k + 1) * geo m.
Proof.
  induction v as [|v [k IH]]; [exists 0; change (2 ^ 0)%nat with 1%nat; rewrite Nat.mul_1_l; change (2 ^ Z.of_nat 0) with 1; lia|].
  replace (2 ^ S v * m)%nat with (2 * (2 ^ v * m))%nat by (rewrite Nat.pow_succ_r'; lia).
  destruct (geo_double (2 ^ v * m)) as [j E]. rewrite E, IH, Nat2Z.inj_succ, Z.pow_succ_r by lia.
  exists (2 * k * j + k + j). ring.
Qed.

Lemma step_pow v m x : exists k, affine (2 ^ v * m) x = x + 2 ^ Z.of_nat v * (2 * k + Z.of_nat m).
Proof.
  rewrite affine_geo. destruct (geo_pow v m) as [k E], (mult_odd x) as [j J], (geo_parity m) as [i I]. rewrite E, J, I.
  exists (i * (2 * k + 1) * (2 * j + 1) + Z.of_nat m * (2 * k * j + k + j)). ring.
Qed.

Lemma split_two k : (0 < k)%nat -> exists v m, k = (2 ^ v * (2 * m + 1))%nat.
Proof.
  induction k as [k IH] using lt_wf_ind. intro H. destruct (Nat.Even_or_Odd k) as [[h E]|[h E]].
  - destruct (IH h) as (v & m & E'); [lia|lia|]. exists (S v), m. rewrite Nat.pow_succ_r', E, E'. lia.
  - exists 0%nat, h. rewrite E. change (2 ^ 0)%nat with 1%nat. lia.
Qed.

Lemma pow_pos v : 0 < 2 ^ Z.of_nat v. Proof. apply Z.pow_pos_nonneg; lia. Qed.
Lemma pow_natz v : Z.of_nat (2 ^ v) = 2 ^ Z.of_nat v.
Proof. induction v as [|v IH]; [reflexivity|]. rewrite Nat.pow_succ_r', Nat2Z.inj_mul, IH. replace (Z.of_nat (S v)) with (1 + Z.of_nat v) by lia. rewrite Z.pow_add_r by lia. reflexivity. Qed.

Lemma pow_div a b : (2 ^ Z.of_nat a | 2 ^ Z.of_nat b) <-> (a <= b)%nat.
Proof.
  split; intro H.
  - apply Z.divide_pos_le in H; [|apply pow_pos]. destruct (le_lt_dec a b) as [|L]; [assumption|].
    pose proof (Z.pow_lt_mono_r 2 (Z.of_nat b) (Z.of_nat a)). lia.
  - exists (2 ^ Z.of_nat (b - a)). rewrite <- Z.pow_add_r by lia. f_equal. lia.
Qed.

Lemma odd_part_div w v k : (2 ^ Z.of_nat w | 2 ^ Z.of_nat v * (2 * k + 1)) <-> (w <= v)%nat.
Proof.
  split.
  - intros [q E]. destruct (le_lt_dec w v) as [|L]; [assumption|exfalso]. 
    replace (Z.of_nat w) with (Z.of_nat v + (1 + Z.of_nat (w - S v))) in E by lia. rewrite !Z.pow_add_r in E by lia.
    pose proof (pow_pos v). change (2 ^ 1) with 2 in E. 
    assert (2 * k + 1 = 2 * (q * 2 ^ Z.of_nat (w - S v))) by (apply Z.mul_reg_l with (p := 2 ^ Z.of_nat v); [lia|]; rewrite E; ring). lia.
  - intro L. apply Z.divide_mul_l, pow_div, L.
Qed.

(** k steps bring the generator back modulo 2^w exactly if 2^w divides k. *)
Lemma orbit_period w k x : (2 ^ Z.of_nat w | affine k x - x) <-> (2 ^ Z.of_nat w | Z.of_nat k).
Proof.
  destruct k as [|k0]; [unfold affine; cbn [Nat.iter nat_rect]; rewrite Z.sub_diag; cbn [Z.of_nat]; reflexivity|]. set (k := S k0).
  destruct (split_two k) as (v & m & E); [unfold k; lia|]. clearbody k. subst k.
  destruct (step_pow v (2 * m + 1) x) as [i I]. rewrite I.
  replace (x + _ - x) with (2 ^ Z.of_nat v * (2 * (i + Z.of_nat m) + 1)) by lia.
  rewrite Nat2Z.inj_mul, pow_natz. replace (Z.of_nat (2 * m + 1)) with (2 * Z.of_nat m + 1) by lia.
  rewrite !odd_part_div. reflexivity.
Qed.

(** Taking n = 2^v m steps at a time, m odd, the generator reaches every value that agrees with the first modulo 2^v. *)
Lemma orbit_reach v m d : forall s t, (2 ^ Z.of_nat v | t - s) ->
  exists q, (q < 2 ^ d)%nat /\ (2 ^ Z.of_nat (v + d) | affine (2 ^ v * (2 * m + 1) * q) s - t).
Proof.
  induction d as [|d IH]; intros s t H.
  - exists 0%nat. split; [cbn; lia|]. rewrite Nat.mul_0_r, Nat.add_0_r. unfold affine. cbn [Nat.iter nat_rect].
    replace (s - t) with (- (t - s)) by lia. apply Z.divide_opp_r, H.
  - destruct (IH s t H) as (q & Lq & [z Z]). destruct (Z.Even_or_Odd z) as [[y Y]|[y Y]].
    + exists q. split; [rewrite Nat.pow_succ_r'; lia|]. exists y. rewrite Z, Y.
      replace (Z.of_nat (v + S d)) with (1 + Z.of_nat (v + d)) by lia. rewrite Z.pow_add_r by lia. change (2 ^ 1) with 2. lia.
    + exists (2 ^ d + q)%nat. split; [rewrite Nat.pow_succ_r'; lia|].
      replace (2 ^ v * (2 * m + 1) * (2 ^ d + q))%nat with (2 ^ (v + d) * (2 * m + 1) + 2 ^ v * (2 * m + 1) * q)%nat by (rewrite Nat.pow_add_r; ring).
      rewrite affine_plus. destruct (step_pow (v + d) (2 * m + 1) (affine (2 ^ v * (2 * m + 1) * q) s)) as [i I]. rewrite I.
      exists (i + Z.of_nat m + y + 1).
      replace (Z.of_nat (v + S d)) with (1 + Z.of_nat (v + d)) by lia. rewrite Z.pow_add_r by lia. change (2 ^ 1) with 2. 
      transitivity (affine (2 ^ v * (2 * m + 1) * q) s - t + 2 ^ Z.of_nat (v + d) * (2 * i + Z.of_nat (2 * m + 1))); [ring|].
      rewrite Z, Y. replace (Z.of_nat (2 * m + 1)) with (2 * Z.of_nat m + 1) by lia. ring.
Qed.

(** ** The states of the generator *)
Lemma lcg_next_affine s : lcg_next s = (mult * s + incr) mod 2 ^ 32.
Proof. unfold lcg_next. rewrite Zplus_mod_idemp_l. f_equal. unfold mult, incr. lia. Qed.

Lemma lcg_next_range s : 0 <= lcg_next s < 2 ^ 32.
Proof. rewrite lcg_next_affine. apply Z.mod_pos_bound. reflexivity. Qed.

Definition steps (k : nat) (s : Z) : Z := Nat.iter k lcg_next s.
Lemma steps_S k s : steps (S k) s = lcg_next (steps k s). Proof. reflexivity. Qed.
Lemma steps_next k s : steps k (lcg_next s) = steps (S k) s.
Proof. induction k as [|k IH]; [reflexivity|]. rewrite steps_S, IH. reflexivity. Qed.
Lemma steps_plus m n s : steps (m + n) s = steps m (steps n s).
Proof. induction m as [|m IH]; [reflexivity|]. cbn [Nat.add]. rewrite !steps_S, IH. reflexivity. Qed.

Lemma steps_affine k s : 0 <= s < 2 ^ 32 -> steps k s = affine k s mod 2 ^ 32.
Proof.
  intro Hs. induction k as [|k IH]; [unfold steps, affine; cbn [Nat.iter nat_rect]; symmetry; apply Z.mod_small, Hs|].
  rewrite steps_S, IH, lcg_next_affine. unfold affine. cbn [Nat.iter nat_rect]. 
  rewrite Zplus_mod, Zmult_mod_idemp_r, <- Zplus_mod. reflexivity.
Qed.

Lemma steps_range k s : 0 <= s < 2 ^ 32 -> 0 <= steps k s < 2 ^ 32.
Proof. intro Hs. destruct k as [|k]; [exact Hs|]. rewrite steps_S. apply lcg_next_range. Qed.

Lemma mod_pow_div a b w : 0 <= w -> (2 ^ w | a - b) <-> a mod 2 ^ w = b mod 2 ^ w.
Proof.
  intro W. assert (P : 0 < 2 ^ w) by (apply Z.pow_pos_nonneg; lia). split; intro H.
  - destruct H as [q E]. replace a with (b + q * 2 ^ w) by lia. apply Z_mod_plus_full.
  - apply Z.mod_divide; [lia|]. rewrite Zminus_mod, H, Z.sub_diag. apply Z.mod_0_l. lia.
Qed.

Lemma mod_mod_pow a w u : 0 <= w <= u -> (a mod 2 ^ u) mod 2 ^ w = a mod 2 ^ w.
Proof.
  intro W. apply mod_pow_div; [lia|]. assert (P : 0 < 2 ^ u) by (apply Z.pow_pos_nonneg; lia).
  exists (- (a / 2 ^ u) * 2 ^ (u - w)). rewrite <- Z.mul_assoc, <- Z.pow_add_r by lia. replace (u - w + w) with u by lia.
  pose proof (Z.div_mod a (2 ^ u)). lia.
Qed.

Lemma steps_mod k s w : (w <= 32)%nat -> 0 <= s < 2 ^ 32 -> steps k s mod 2 ^ Z.of_nat w = affine k s mod 2 ^ Z.of_nat w.
Proof. intros W Hs. rewrite steps_affine by exact Hs. apply mod_mod_pow. lia. Qed.

Lemma steps_period k s : 0 <= s < 2 ^ 32 -> steps k s = s <-> (2 ^ 32 | Z.of_nat k).
Proof.
  intro Hs. change (2 ^ 32) with (2 ^ Z.of_nat 32) at 1. rewrite <- (orbit_period 32 k s), mod_pow_div by lia.
  change (2 ^ Z.of_nat 32) with (2 ^ 32). rewrite <- steps_affine by exact Hs. rewrite (Z.mod_small s) by exact Hs. reflexivity.
Qed.

(** ** One draw *)
Definition draw (n r : nat) (s : Z) : Z :=
  from_digits (map (fun i => steps (S i) s) (seq 0 n)) + 2 ^ (32 * Z.of_nat n) * (steps (S n) s mod 2 ^ Z.of_nat r).

Lemma chunks_eq n : forall s, lcg_chunks n s = (map (fun i => steps (S i) s) (seq 0 n), steps n s).
Proof.
  induction n as [|n IH]; intro s; [reflexivity|]. cbn [lcg_chunks]. rewrite IH. cbn [seq map]. rewrite steps_next. f_equal. f_equal.
  rewrite <- seq_shift, map_map. apply map_ext. intro i. apply steps_next.
Qed.

Lemma from_digits_app l x : from_digits (l ++ [x]) = from_digits l + 2 ^ (32 * Z.of_nat (length l)) * x.
Proof.
  induction l as [|d l IH]; [cbn [app from_digits length]; change (2 ^ (32 * Z.of_nat 0)) with 1; lia|].
  cbn [app from_digits length]. rewrite IH. replace (32 * Z.of_nat (S (length l))) with (32 + 32 * Z.of_nat (length l)) by lia.
  rewrite Z.pow_add_r by lia. ring.
Qed.

Lemma from_digits_range l : Forall (fun d => 0 <= d < 2 ^ 32) l -> 0 <= from_digits l < 2 ^ (32 * Z.of_nat (length l)).
Proof.
  induction 1 as [|d l Hd Hl IH]; [cbn; lia|]. cbn [from_digits length].
  replace (32 * Z.of_nat (S (length l))) with (32 + 32 * Z.of_nat (length l)) by lia. rewrite Z.pow_add_r by lia. nia.
Qed.

Lemma lcg_bits_eq n r s : (1 <= r <= 32)%nat -> 0 <= s < 2 ^ 32 -> lcg_bits (32 * n + r) s = (draw n r s, steps (S n) s).
Proof.
  intros Hr Hs. unfold lcg_bits, draw. destruct (Nat.eq_dec r 32) as [->|N].
  - replace (32 * n + 32)%nat with (32 * S n)%nat by lia. rewrite (Nat.mul_comm 32), Nat.div_mul, Nat.mod_mul by lia.
    rewrite chunks_eq. cbn [Nat.ltb Nat.leb]. f_equal. rewrite seq_S, map_app. cbn [map Nat.add]. rewrite from_digits_app, map_length, seq_length.
    do 2 f_equal. symmetry. apply Z.mod_small. change (2 ^ Z.of_nat 32) with (2 ^ 32). apply steps_range, Hs.
  - replace ((32 * n + r) / 32)%nat with n by (apply Nat.div_unique with r; lia).
    replace ((32 * n + r) mod 32)%nat with r by (apply Nat.mod_unique with n; lia).
    rewrite chunks_eq. destruct (Nat.ltb_spec 0 r); [|lia]. rewrite from_digits_app, map_length, seq_length. reflexivity.
Qed.

Lemma low_range n s : 0 <= s < 2 ^ 32 -> 0 <= from_digits (map (fun i => steps (S i) s) (seq 0 n)) < 2 ^ (32 * Z.of_nat n).
Proof.
  intro Hs. pose proof (from_digits_range (map (fun i => steps (S i) s) (seq 0 n))) as H. rewrite map_length, seq_length in H. apply H.
  apply Forall_map, Forall_forall. intros i _. apply steps_range, Hs.
Qed.

Lemma draw_range n r s : 0 <= s < 2 ^ 32 -> 0 <= draw n r s < 2 ^ (32 * Z.of_nat n + Z.of_nat r).
Proof.
  intro Hs. unfold draw. pose proof (low_range n s Hs). pose proof (Z.mod_pos_bound (steps (S n) s) (2 ^ Z.of_nat r) (pow_pos r)).
  rewrite Z.pow_add_r by lia. nia.
Qed.

(** ** The loop *)
Lemma lcg_loop_found n r limit : (1 <= r <= 32)%nat -> forall q s, 0 <= s < 2 ^ 32 -> draw n r (steps (S n * q) s) < limit ->
  exists x, lcg_loop (S q) (32 * n + r) limit s = Ok x.
Proof.
  intro Hr. induction q as [|q IH]; intros s Hs H; cbn [lcg_loop]; rewrite (lcg_bits_eq n r s Hr Hs).
  - rewrite Nat.mul_0_r in H. change (steps 0 s) with s in H. destruct (Z.ltb_spec (draw n r s) limit); [eauto|lia].
  - destruct (Z.ltb_spec (draw n r s) limit); [eauto|]. apply IH; [apply steps_range, Hs|]. rewrite <- steps_plus. 
    replace (S n * q + S n)%nat with (S n * S q)%nat by lia. exact H.
Qed.

Lemma lcg_loop_stuck n r limit : (1 <= r <= 32)%nat -> forall fuel s, 0 <= s < 2 ^ 32 -> (forall q, limit <= draw n r (steps (S n * q) s)) ->
  lcg_loop fuel (32 * n + r) limit s = NoFuel.
Proof.
  intro Hr. induction fuel as [|fuel IH]; intros s Hs H; [reflexivity|]. cbn [lcg_loop]. rewrite (lcg_bits_eq n r s Hr Hs).
  pose proof (H 0%nat) as H0. rewrite Nat.mul_0_r in H0. change (steps 0 s) with s in H0. destruct (Z.ltb_spec (draw n r s) limit); [lia|].
  apply IH; [apply steps_range, Hs|]. intro q. rewrite <- steps_plus. replace (S n * q + S n)%nat with (S n * S q)%nat by lia. apply H.
Qed.

Lemma zbits_limit n r limit : (1 <= r)%nat -> 2 ^ (32 * Z.of_nat n + Z.of_nat r - 1) < limit <= 2 ^ (32 * Z.of_nat n + Z.of_nat r) ->
  zbits (limit - 1) = (32 * n + r)%nat.
Proof.
  intros Hr H. replace (32 * n + r)%nat with (S (32 * n + r - 1)) by lia. apply zbits_unique.
  replace (Z.of_nat (32 * n + r - 1)) with (32 * Z.of_nat n + Z.of_nat r - 1) by lia.
  replace (Z.of_nat (S (32 * n + r - 1))) with (32 * Z.of_nat n + Z.of_nat r) by lia. lia.
Qed.

Lemma biguint_loop fuel n r limit s : (1 <= r)%nat -> 2 ^ (32 * Z.of_nat n + Z.of_nat r - 1) < limit <= 2 ^ (32 * Z.of_nat n + Z.of_nat r) ->
  lcg_biguint fuel limit s = lcg_loop fuel (32 * n + r) limit s.
Proof.
  intros Hr H. unfold lcg_biguint. rewrite (zbits_limit n r limit Hr H).
  assert (0 < 2 ^ (32 * Z.of_nat n + Z.of_nat r - 1)) by (apply Z.pow_pos_nonneg; lia). destruct (Z.leb_spec 1 limit); [reflexivity|lia].
Qed.

(** The top bit of the draw becomes 0 when it can change at all. *)
Lemma draw_reach n r s : (1 <= r <= 32)%nat -> 0 <= s < 2 ^ 32 -> ~ (2 ^ Z.of_nat r | Z.of_nat (S n)) ->
  exists q, (q < 2 ^ r)%nat /\ draw n r (steps (S n * q) s) < 2 ^ (32 * Z.of_nat n + Z.of_nat r - 1).
Proof.
  intros Hr Hs Hd. destruct (split_two (S n)) as (v & m & E); [lia|].
  assert (V : (v < r)%nat).
  { destruct (le_lt_dec r v) as [L|]; [exfalso|assumption]. apply Hd. rewrite E, Nat2Z.inj_mul, pow_natz.
    replace (Z.of_nat (2 * m + 1)) with (2 * Z.of_nat m + 1) by lia. apply odd_part_div, L. }
  set (s1 := steps (S n) s). pose (t := s1 mod 2 ^ Z.of_nat (r - 1)).
  assert (Hs1 : 0 <= s1 < 2 ^ 32) by apply steps_range, Hs.
  assert (Ht : 0 <= t < 2 ^ Z.of_nat (r - 1)) by apply Z.mod_pos_bound, pow_pos.
  destruct (orbit_reach v m (r - v) s1 t) as (q & Lq & Dq).
  { apply mod_pow_div; [lia|]. unfold t. rewrite mod_mod_pow by lia. reflexivity. }
  exists q. split. { eapply Nat.lt_le_trans; [exact Lq|]. apply Nat.pow_le_mono_r; lia. }
  assert (T : steps (S n) (steps (S n * q) s) mod 2 ^ Z.of_nat r = t).
  { rewrite <- steps_plus, Nat.add_comm, steps_plus. fold s1. rewrite steps_mod by (lia || exact Hs1).
    rewrite E. replace (v + (r - v))%nat with r in Dq by lia. apply mod_pow_div in Dq; [|lia]. rewrite Dq. apply Z.mod_small.
    split; [lia|]. eapply Z.lt_le_trans; [apply Ht|]. apply Z.pow_le_mono_r; lia. }
  unfold draw. rewrite T. pose proof (low_range n (steps (S n * q) s) (steps_range _ _ Hs)).
  replace (32 * Z.of_nat n + Z.of_nat r - 1) with (32 * Z.of_nat n + Z.of_nat (r - 1)) by lia. rewrite Z.pow_add_r by lia. nia.
Qed.
