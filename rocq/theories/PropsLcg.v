(** C91, C92: the period of the generator of lcg.rs, the limits on which next_biguint terminates, and the fields on which
    the defaults built on it (mimc.rs, merkle_damgard.rs, the README's hash) can be used. *)
From Coq Require Import ZArith List Bool Arith Lia Znumtheory.
From Verif Require Import Base FieldM FieldP ExprM BuilderM GadgetsM CryptoM ReadmeM Spec SpecCrypto ExprP BitsP ArithP
  Demo PropLib CryptoP PropsCore PropsCrypto PrimeP PropsReadme PropsDefaults LcgP.
Import ListNotations.
Open Scope Z_scope.

(** ** C91 *)

(** k calls of next_u32 return to the same state exactly if k is a multiple of 2^32 ... *)
Theorem C91_period : forall s, 0 <= s < 2 ^ 32 -> forall k, Nat.iter k lcg_next s = s <-> (2 ^ 32 | Z.of_nat k).
Proof. intros s Hs k. exact (steps_period k s Hs). Qed.
Print Assumptions C91_period.

(** ... so within fewer than 2^32 calls it passes through every 32-bit value ... *)
Theorem C91_all_states : forall s t, 0 <= s < 2 ^ 32 -> 0 <= t < 2 ^ 32 -> exists k, Z.of_nat k < 2 ^ 32 /\ Nat.iter k lcg_next s = t.
Proof.
  intros s t Hs Ht. destruct (orbit_reach 0 0 32 s t) as (q & Lq & Dq); [exists (t - s); change (2 ^ Z.of_nat 0) with 1; lia|].
  exists q. split; [apply Nat2Z.inj_lt in Lq; rewrite pow_natz in Lq; exact Lq|].
  change (2 ^ 0 * (2 * 0 + 1))%nat with 1%nat in Dq. rewrite Nat.mul_1_l in Dq. apply mod_pow_div in Dq; [|lia].
  change (2 ^ Z.of_nat (0 + 32)) with (2 ^ 32) in Dq. rewrite (Z.mod_small t) in Dq by exact Ht. rewrite <- Dq. exact (steps_affine q s Hs).
Qed.
Print Assumptions C91_all_states.

(** ... but its w low bits repeat after 2^w calls already. *)
Theorem C91_low_bits : forall s, 0 <= s < 2 ^ 32 -> forall w k, (w <= 32)%nat ->
  (Nat.iter k lcg_next s) mod 2 ^ Z.of_nat w = s mod 2 ^ Z.of_nat w <-> (2 ^ Z.of_nat w | Z.of_nat k).
Proof.
  intros s Hs w k W. rewrite <- (orbit_period w k s), mod_pow_div by lia. change (Nat.iter k lcg_next s) with (steps k s).
  rewrite (steps_mod k s w W Hs). reflexivity.
Qed.
Print Assumptions C91_low_bits.

Lemma loop_more fuel : forall fuel' bits limit s x, (fuel <= fuel')%nat -> lcg_loop fuel bits limit s = Ok x -> lcg_loop fuel' bits limit s = Ok x.
Proof.
  induction fuel as [|fuel IH]; intros fuel' bits limit s x L E; [discriminate|]. destruct fuel' as [|fuel']; [lia|]. cbn [lcg_loop] in *.
  destruct (lcg_bits bits s) as [n s1]. destruct (n <? limit); [exact E|]. apply IH; [lia|exact E].
Qed.

Lemma biguint_more fuel fuel' limit s x : (fuel <= fuel')%nat -> lcg_biguint fuel limit s = Ok x -> lcg_biguint fuel' limit s = Ok x.
Proof. unfold lcg_biguint. intros L E. destruct (oassert (1 <=? limit)); cbn [obind] in *; try discriminate. apply (loop_more fuel); assumption. Qed.

(** The draws for a limit of 32n + r bits consist of n words and r bits of a further one.  Unless 2^r divides n + 1, the loop
    ends after at most 2^r draws, from every state. *)
Theorem C91_bound : forall n r limit s, (1 <= r <= 32)%nat -> ~ (2 ^ Z.of_nat r | Z.of_nat n + 1) ->
  2 ^ (32 * Z.of_nat n + Z.of_nat r - 1) < limit <= 2 ^ (32 * Z.of_nat n + Z.of_nat r) -> 0 <= s < 2 ^ 32 ->
  exists x, forall fuel, 2 ^ Z.of_nat r <= Z.of_nat fuel -> lcg_biguint fuel limit s = Ok x.
Proof.
  intros n r limit s Hr Hd Hl Hs. replace (Z.of_nat n + 1) with (Z.of_nat (S n)) in Hd by lia.
  destruct (draw_reach n r s Hr Hs Hd) as (q & Lq & Dq). destruct (lcg_loop_found n r limit Hr q s Hs) as [x E]; [lia|].
  exists x. intros fuel Hf. rewrite (biguint_loop fuel n r limit s) by (lia || exact Hl). apply (loop_more (S q)); [|exact E].
  rewrite <- pow_natz in Hf. lia.
Qed.
Print Assumptions C91_bound.

Lemma terminates_33 limit s : 2 ^ 32 < limit <= 2 ^ 33 -> 0 <= s < 2 ^ 32 -> exists fuel x, lcg_biguint fuel limit s = Ok x.
Proof.
  intros Hl Hs. assert (X : exists q, draw 1 1 (steps (2 * q) s) < limit).
  { pose proof (lcg_next_range s) as H1. destruct (Z.Even_or_Odd (lcg_next s)) as [[k K]|[k K]].
    - destruct (orbit_reach 1 0 31 (lcg_next s) 0) as (q & _ & Dq); [exists (- k); change (2 ^ Z.of_nat 1) with 2; lia|].
      exists q. change (2 ^ 1 * (2 * 0 + 1))%nat with 2%nat in Dq. apply mod_pow_div in Dq; [|lia]. change (2 ^ Z.of_nat (1 + 31)) with (2 ^ 32) in Dq.
      rewrite <- (steps_affine (2 * q) _ H1), steps_next, Z.mod_0_l in Dq by lia. unfold draw. cbn [seq map from_digits]. rewrite <- steps_plus.
      change (1 + 2 * q)%nat with (S (2 * q)). rewrite Dq. pose proof (Z.mod_pos_bound (steps 2 (steps (2 * q) s)) (2 ^ Z.of_nat 1) ltac:(lia)) as B.
      change (2 ^ Z.of_nat 1) with 2 in *. change (32 * Z.of_nat 1) with 32. lia.
    - exists 0%nat. unfold draw. cbn [seq map from_digits]. rewrite Nat.mul_0_r. change (steps 0 s) with s. change (steps 1 s) with (lcg_next s).
      change (steps 2 s) with (lcg_next (lcg_next s)). rewrite (lcg_next_affine (lcg_next s)), K.
      assert (E : (mult * (2 * k + 1) + incr) mod 2 ^ 32 mod 2 ^ Z.of_nat 1 = 0).
      { change 32 with (Z.of_nat 32). rewrite mod_mod_pow by lia. change (2 ^ Z.of_nat 1) with 2. unfold mult, incr.
        replace (1664525 * (2 * k + 1) + 1013904223) with ((1664525 * k + 507784374) * 2) by lia. apply Z_mod_mult. }
      rewrite E. lia. }
  destruct X as [q Dq]. destruct (lcg_loop_found 1 1 limit ltac:(lia) q s Hs Dq) as [x E]. exists (S q), x.
  rewrite (biguint_loop (S q) 1 1 limit s) by (lia || exact Hl). exact E.
Qed.

Lemma diverges n r : (1 <= r <= 32)%nat -> (2 ^ Z.of_nat r | Z.of_nat (S n)) -> ~ (n = 1 /\ r = 1)%nat ->
  forall fuel, lcg_biguint fuel (2 ^ (32 * Z.of_nat n + Z.of_nat r - 1) + 1) (2 ^ Z.of_nat r - 1) = NoFuel.
Proof.
  intros Hr Hd Hx fuel. set (s := 2 ^ Z.of_nat r - 1). pose proof (pow_pos r) as Pr.
  assert (Hs : 0 <= s < 2 ^ 32).
  { unfold s. pose proof (Z.pow_le_mono_r 2 (Z.of_nat r) 32). lia. }
  assert (P1 : 0 < 2 ^ (32 * Z.of_nat n + Z.of_nat r - 1)) by (apply Z.pow_pos_nonneg; lia).
  assert (P2 : 2 ^ (32 * Z.of_nat n + Z.of_nat r) = 2 * 2 ^ (32 * Z.of_nat n + Z.of_nat r - 1)).
  { rewrite <- Z.pow_succ_r by lia. f_equal. lia. }
  rewrite (biguint_loop fuel n r) by lia. apply lcg_loop_stuck; [exact Hr|exact Hs|]. intro q. set (s' := steps (S n * q) s).
  assert (Hs' : 0 <= s' < 2 ^ 32) by apply steps_range, Hs.
  assert (T : steps (S n) s' mod 2 ^ Z.of_nat r = 2 ^ Z.of_nat r - 1).
  { unfold s'. rewrite <- steps_plus. replace (S n + S n * q)%nat with (S n * S q)%nat by lia. rewrite (steps_mod _ s r) by (lia || exact Hs).
    transitivity (s mod 2 ^ Z.of_nat r); [|apply Z.mod_small; unfold s; lia]. apply mod_pow_div; [lia|]. apply orbit_period.
    rewrite Nat2Z.inj_mul. apply Z.divide_mul_l, Hd. }
  unfold draw. rewrite T. pose proof (low_range n s' Hs') as Lw. assert (Pn : 0 < 2 ^ (32 * Z.of_nat n)) by (apply Z.pow_pos_nonneg; lia).
  replace (32 * Z.of_nat n + Z.of_nat r - 1) with (32 * Z.of_nat n + Z.of_nat (r - 1)) in * by lia. rewrite Z.pow_add_r in * by lia.
  destruct (Nat.eq_dec r 1) as [->|R].
  - change (2 ^ Z.of_nat 1) with 2 in *. change (2 ^ Z.of_nat (1 - 1)) with 1 in *. 
    assert (Hn : exists n', n = S (S n')).
    { destruct n as [|[|n']]; [|exfalso; apply Hx; auto|eauto]. destruct Hd as [k K]. lia. }
    destruct Hn as [n' ->]. cbn [seq map from_digits] in *. set (rest := from_digits _) in *.
    assert (0 <= rest).
    { unfold rest. apply (from_digits_range (map (fun i => steps (S i) s') (seq 2 n'))). apply Forall_map, Forall_forall. intros i _. apply steps_range, Hs'. }
    pose proof (steps_range 1 s' Hs'). pose proof (steps_range 2 s' Hs'). 
    assert (steps 1 s' <> 0 \/ 0 < steps 2 s').
    { destruct (Z.eq_dec (steps 1 s') 0) as [E|E]; [right|left; exact E]. rewrite steps_S, E. reflexivity. }
    lia.
  - assert (2 <= 2 ^ Z.of_nat (r - 1)) by (change 2 with (2 ^ 1) at 1; apply Z.pow_le_mono_r; lia).
    assert (2 ^ Z.of_nat r = 2 * 2 ^ Z.of_nat (r - 1)) by (rewrite <- Z.pow_succ_r by lia; f_equal; lia). nia.
Qed.

(** The exact condition: next_biguint returns for all limits of 32n + r bits, from every state, exactly if 2^r does not
    divide n + 1; 33 bits are the only exception. *)
Theorem C91_terminates_iff : forall n r, (1 <= r <= 32)%nat ->
  (forall limit s, 2 ^ (32 * Z.of_nat n + Z.of_nat r - 1) < limit <= 2 ^ (32 * Z.of_nat n + Z.of_nat r) -> 0 <= s < 2 ^ 32 ->
     exists fuel x, lcg_biguint fuel limit s = Ok x) <->
  ~ (2 ^ Z.of_nat r | Z.of_nat n + 1) \/ (n = 1 /\ r = 1)%nat.
Proof.
  intros n r Hr. split.
  - intro H. destruct (Zdivide_dec (2 ^ Z.of_nat r) (Z.of_nat n + 1)) as [D|D]; [|left; exact D]. right.
    destruct (Nat.eq_dec n 1) as [En|En], (Nat.eq_dec r 1) as [Er|Er]; auto; exfalso.
    all: replace (Z.of_nat n + 1) with (Z.of_nat (S n)) in D by lia.
    all: assert (P1 : 0 < 2 ^ (32 * Z.of_nat n + Z.of_nat r - 1)) by (apply Z.pow_pos_nonneg; lia).
    all: assert (P2 : 2 ^ (32 * Z.of_nat n + Z.of_nat r) = 2 * 2 ^ (32 * Z.of_nat n + Z.of_nat r - 1)) by (rewrite <- Z.pow_succ_r by lia; f_equal; lia).
    all: assert (P3 : 0 < 2 ^ Z.of_nat r <= 2 ^ 32) by (split; [apply pow_pos|apply Z.pow_le_mono_r; lia]).
    all: destruct (H (2 ^ (32 * Z.of_nat n + Z.of_nat r - 1) + 1) (2 ^ Z.of_nat r - 1)) as (fuel & x & E); [lia|lia|].
    all: rewrite diverges in E; [discriminate|exact Hr|exact D|lia].
  - intros [D|[-> ->]] limit s Hl Hs.
    + destruct (C91_bound n r limit s Hr D Hl Hs) as [x E]. exists (2 ^ r)%nat, x. apply E. rewrite pow_natz. lia.
    + apply terminates_33; assumption.
Qed.
Print Assumptions C91_terminates_iff.

(** The smallest limit on which a state exists from which it never returns has 97 bits. *)
Theorem C91_up_to_96_bits : forall limit s, 1 <= limit <= 2 ^ 96 -> 0 <= s < 2 ^ 32 -> exists fuel x, lcg_biguint fuel limit s = Ok x.
Proof.
  intros limit s Hl Hs. destruct (Z.eq_dec limit 1) as [->|N1]; [exists 1%nat; eexists; reflexivity|].
  assert (Z1 : exists b, (1 <= b <= 96)%nat /\ 2 ^ (Z.of_nat b - 1) < limit <= 2 ^ Z.of_nat b).
  { exists (zbits (limit - 1)). pose proof (zbits_pos (limit - 1) ltac:(lia)) as A. pose proof (zbits_spec (limit - 1) ltac:(lia)) as B.
    pose proof (zbits_min (limit - 1) 96 ltac:(change (Z.of_nat 96) with 96; lia)). 
    assert (1 <= zbits (limit - 1))%nat by (pose proof (zbits_lower (limit - 1) 0 ltac:(change (2 ^ Z.of_nat 0) with 1; lia)); lia).
    split; [lia|]. replace (Z.of_nat (zbits (limit - 1)) - 1) with (Z.of_nat (zbits (limit - 1) - 1)) by lia. lia. }
  destruct Z1 as (b & Hb & Lb).
  assert (Z2 : exists n r, b = (32 * n + r)%nat /\ (1 <= r <= 32)%nat /\ (n <= 2)%nat).
  { exists ((b - 1) / 32)%nat, (S ((b - 1) mod 32)). pose proof (Nat.div_mod (b - 1) 32). pose proof (Nat.mod_upper_bound (b - 1) 32). lia. }
  destruct Z2 as (n & r & -> & Hr & Hn).
  replace (Z.of_nat (32 * n + r)) with (32 * Z.of_nat n + Z.of_nat r) in Lb by lia.
  apply (proj2 (C91_terminates_iff n r Hr)); [|exact Lb|exact Hs].
  destruct (Nat.eq_dec n 1) as [En|En], (Nat.eq_dec r 1) as [Er|Er]; [right; auto| | |]; left; intros [k K].
  all: assert (2 <= 2 ^ Z.of_nat r) by (change 2 with (2 ^ 1) at 1; apply Z.pow_le_mono_r; lia).
  - assert (2 ^ 2 <= 2 ^ Z.of_nat r) by (apply Z.pow_le_mono_r; lia). pose proof (Z.divide_pos_le (2 ^ Z.of_nat r) (Z.of_nat n + 1) ltac:(lia) (ex_intro _ k K)). change (2 ^ 2) with 4 in *. lia.
  - subst r. change (2 ^ Z.of_nat 1) with 2 in *. lia.
  - assert (2 ^ 2 <= 2 ^ Z.of_nat r) by (apply Z.pow_le_mono_r; lia). pose proof (Z.divide_pos_le (2 ^ Z.of_nat r) (Z.of_nat n + 1) ltac:(lia) (ex_intro _ k K)). change (2 ^ 2) with 4 in *. lia.
Qed.
Print Assumptions C91_up_to_96_bits.

Theorem C91_97_bits : forall fuel, lcg_biguint fuel (2 ^ 96 + 1) 1 = NoFuel.
Proof. exact (diverges 3 1 ltac:(lia) ltac:(exists 2; reflexivity) ltac:(lia)). Qed.
Print Assumptions C91_97_bits.

(** Both fields the library ships are safe: at most 2^30 and 2^31 draws for an element. *)
Theorem C91_shipped_fields : forall s, 0 <= s < 2 ^ 32 ->
  (exists x, forall fuel, 2 ^ 30 <= Z.of_nat fuel -> @lcg_element Bn128 fuel s = Ok x) /\
  (exists x, forall fuel, 2 ^ 31 <= Z.of_nat fuel -> @lcg_element Bls12_381 fuel s = Ok x).
Proof.
  intros s Hs.
  assert (X : forall (F : Field) n r, 1 <= order -> (1 <= r <= 32)%nat -> ~ (2 ^ Z.of_nat r | Z.of_nat n + 1) ->
    2 ^ (32 * Z.of_nat n + Z.of_nat r - 1) < order <= 2 ^ (32 * Z.of_nat n + Z.of_nat r) ->
    exists x, forall fuel, 2 ^ Z.of_nat r <= Z.of_nat fuel -> lcg_element fuel s = Ok x).
  { intros F n r H1 Hr Hd Hl. destruct (C91_bound n r order s Hr Hd Hl Hs) as [[e s1] E]. exists (e, s1). intros fuel Hf. unfold lcg_element.
    rewrite (E fuel Hf). cbn [obind]. destruct (C50_below_limit _ _ _ _ _ Hs (E fuel Hf)) as [A _]. unfold el_from.
    destruct (Z.ltb_spec e order); [reflexivity|lia]. }
  split.
  - apply (X Bn128 7%nat 30%nat); [vm_compute; congruence|lia|intros [k K]; change (2 ^ Z.of_nat 30) with 1073741824 in K; lia|vm_compute; split; congruence].
  - apply (X Bls12_381 7%nat 31%nat); [vm_compute; congruence|lia|intros [k K]; change (2 ^ Z.of_nat 31) with 2147483648 in K; lia|vm_compute; split; congruence].
Qed.
Print Assumptions C91_shipped_fields.

Example C91_example : lcg_biguint 20 5 77 = Ok (0, lcg_next 77) /\ (Nat.iter 4 lcg_next 5) mod 4 = 5 mod 4 /\ lcg_biguint 2 (2 ^ 96 + 1) 1 = NoFuel /\
  exists x, lcg_biguint 2 (2 ^ 96 + 1) 2 = Ok x.
Proof. vm_compute. repeat split. eauto. Qed.

(** ** C92 *)
(** The bit length of p is one for which the generator always returns (C91). *)
Definition always_draws (p : Z) : Prop := forall n r, (1 <= r <= 32)%nat ->
  2 ^ (32 * Z.of_nat n + Z.of_nat r - 1) < p <= 2 ^ (32 * Z.of_nat n + Z.of_nat r) -> ~ (2 ^ Z.of_nat r | Z.of_nat n + 1) \/ (n = 1 /\ r = 1)%nat.

Section Draws.
Context {F : Field} (Hord : 2 <= order) (D : always_draws order).

Lemma draws_element s : 0 <= s < 2 ^ 32 -> exists x N, forall fuel, (N <= fuel)%nat -> lcg_element fuel s = Ok x.
Proof using All.
  intro Hs. assert (Z1 : exists n r, (1 <= r <= 32)%nat /\ 2 ^ (32 * Z.of_nat n + Z.of_nat r - 1) < order <= 2 ^ (32 * Z.of_nat n + Z.of_nat r)).
  { set (b := zbits (order - 1)). exists ((b - 1) / 32)%nat, (S ((b - 1) mod 32)).
    assert (O1 : 0 < order - 1) by lia. assert (O2 : 0 <= order - 1) by lia. assert (O3 : 2 ^ Z.of_nat 0 <= order - 1) by (change (2 ^ Z.of_nat 0) with 1; lia).
    pose proof (zbits_pos (order - 1) O1) as A. pose proof (zbits_spec (order - 1) O2) as B. pose proof (zbits_lower (order - 1) 0 O3) as C. fold b in A, B, C.
    pose proof (Nat.div_mod (b - 1) 32) as E. pose proof (Nat.mod_upper_bound (b - 1) 32). split; [lia|].
    replace (32 * Z.of_nat ((b - 1) / 32) + Z.of_nat (S ((b - 1) mod 32))) with (Z.of_nat b) by lia.
    replace (Z.of_nat b - 1) with (Z.of_nat (b - 1)) by lia. lia. }
  destruct Z1 as (n & r & Hr & Hl). destruct (proj2 (C91_terminates_iff n r Hr) (D n r Hr Hl) order s Hl Hs) as (N & [e s1] & E).
  exists (e, s1), N. intros fuel Hf. unfold lcg_element. rewrite (biguint_more N fuel _ _ _ Hf E). cbn [obind].
  destruct (C50_below_limit _ _ _ _ _ Hs E) as [A _]. unfold el_from. destruct (Z.ltb_spec e order); [reflexivity|lia].
Qed.

Lemma draws_elements n : forall s, 0 <= s < 2 ^ 32 -> exists cs N, forall fuel, (N <= fuel)%nat -> lcg_elements fuel n s = Ok cs.
Proof using All.
  induction n as [|n IH]; intros s Hs; [exists [], 0%nat; reflexivity|].
  destruct (draws_element s Hs) as ((e & s1) & N1 & E1). destruct (C50_element_in_field F Hord N1 s e s1 Hs (E1 N1 (le_n _))) as [_ Hs1].
  destruct (IH s1 Hs1) as (es & N2 & E2). exists (e :: es), (Nat.max N1 N2). intros fuel Hf. cbn [lcg_elements]. rewrite E1 by lia. cbn [obind].
  rewrite E2 by lia. reflexivity.
Qed.
End Draws.

Theorem C92_next_element : forall (F : Field), 2 <= order -> always_draws order -> forall s, 0 <= s < 2 ^ 32 ->
  exists e s' N, 0 <= e < order /\ 0 <= s' < 2 ^ 32 /\ forall fuel, (N <= fuel)%nat -> lcg_element fuel s = Ok (e, s').
Proof.
  intros F Hord D s Hs. destruct (draws_element Hord D s Hs) as ((e & s1) & N & E). exists e, s1, N.
  destruct (C50_element_in_field F Hord N s e s1 Hs (E N (le_n _))). auto.
Qed.
Print Assumptions C92_next_element.

(** Where 3 is prime to p - 1 the README's hash exists and has its value, in every run on fewer than p blocks ... *)
Theorem C92_usable : forall (F : Field), prime order -> always_draws order -> 3 < order -> Z.gcd 3 (order - 1) = 1 ->
  exists cs iv N, length cs = mimc_recommended_rounds /\ Forall (fun c => 0 <= c < order) (iv :: cs) /\
    forall fuel, (N <= fuel)%nat -> forall vals blocks, good_inputs vals -> on_inputs_all vals blocks -> Z.of_nat (length blocks) < order ->
      runs vals (readme_hash fuel blocks) (fun r v => e_evaluate v r = Ok (readme_hash_fun order cs iv (map (wv vals) blocks))).
Proof.
  intros F Hp D L G. pose proof (prime_ge2 Hp) as Hord. assert (H0 : 0 <= lcg_new < 2 ^ 32) by (unfold lcg_new; lia).
  destruct (draws_elements Hord D mimc_recommended_rounds lcg_new H0) as (cs & N1 & E1). destruct (draws_element Hord D lcg_new H0) as ((iv & s) & N2 & E2).
  exists cs, iv, (Nat.max N1 N2). destruct (lcg_elements_field N1 _ Hord lcg_new cs H0 (E1 N1 (le_n _))) as [Lc Ic].
  destruct (C50_element_in_field F Hord N2 lcg_new iv s H0 (E2 N2 (le_n _))) as [Iv _].
  split; [exact Lc|]. split; [constructor; assumption|]. intros fuel Hf vals blocks Hv Hb Lb.
  exact (C73_hash_runs F Hp L G fuel cs iv s (E1 fuel ltac:(lia)) (E2 fuel ltac:(lia)) vals blocks Hv Hb Lb).
Qed.
Print Assumptions C92_usable.

(** ... and nowhere else: otherwise it panics, having drawn the constants ... *)
Theorem C92_unusable : forall (F : Field), prime order -> ~ (3 < order /\ Z.gcd 3 (order - 1) = 1) ->
  (forall fuel blocks b r, readme_hash fuel blocks b <> Ok r) /\
  (always_draws order -> exists N, forall fuel blocks b, (N <= fuel)%nat -> readme_hash fuel blocks b = Panic).
Proof.
  intros F Hp H. pose proof (prime_ge2 Hp) as Hord. split.
  - intros fuel blocks b [r b'] E. destruct (readme_hash_inv Hp _ _ _ _ _ E) as (cs & c & iv & s & _ & E2 & _). rewrite (proj2 (C43_new F Hp cs) H) in E2. discriminate.
  - intro D. assert (H0 : 0 <= lcg_new < 2 ^ 32) by (unfold lcg_new; lia). destruct (draws_elements Hord D mimc_recommended_rounds lcg_new H0) as (cs & N & E1).
    exists N. intros fuel blocks b Hf. unfold readme_hash, bbind, blift, mimc_default. rewrite (E1 fuel Hf). cbn [obind].
    rewrite (proj2 (C43_new F Hp cs) H). reflexivity.
Qed.
Print Assumptions C92_unusable.

(** ... nor does it accept as many blocks as the field has elements. *)
Theorem C92_too_long : forall (F : Field), prime order -> forall fuel blocks b r, order <= Z.of_nat (length blocks) -> readme_hash fuel blocks b <> Ok r.
Proof.
  intros F Hp fuel blocks b [r b'] L E. destruct (readme_hash_inv Hp _ _ _ _ _ E) as (cs & c & iv & s & _ & _ & _ & E4).
  unfold merkle_damgard, bbind in E4. destruct (bfold _ blocks (e_const iv) b) as [[cur b1]| |]; try discriminate. cbn [obind] in E4.
  unfold blift, e_from_uint, el_from in E4. destruct (Z.ltb_spec (Z.of_nat (length blocks)) order); [lia|]. discriminate.
Qed.
Print Assumptions C92_too_long.

(** The condition on the bit length holds for the shipped fields, and for all fields of at most 96 bits. *)
Theorem C92_bit_lengths : always_draws (@order Bn128) /\ always_draws (@order Bls12_381) /\ forall p, 2 <= p <= 2 ^ 96 -> always_draws p.
Proof.
  assert (U : forall a b p, 2 ^ (a - 1) < p <= 2 ^ a -> 2 ^ (b - 1) < p <= 2 ^ b -> 1 <= a -> 1 <= b -> a = b).
  { intros a b p A B La Lb. destruct (Z.lt_trichotomy a b) as [C|[C|C]]; [exfalso|exact C|exfalso].
    - pose proof (Z.pow_le_mono_r 2 a (b - 1)). lia.
    - pose proof (Z.pow_le_mono_r 2 b (a - 1)). lia. }
  split; [|split].
  - intros n r Hr Hl. left. assert (E := U _ 254 _ Hl ltac:(vm_compute; split; congruence) ltac:(lia) ltac:(lia)).
    assert (n = 7%nat /\ r = 30%nat) as [-> ->] by lia. intros [k K]. change (2 ^ Z.of_nat 30) with 1073741824 in K. lia.
  - intros n r Hr Hl. left. assert (E := U _ 255 _ Hl ltac:(vm_compute; split; congruence) ltac:(lia) ltac:(lia)).
    assert (n = 7%nat /\ r = 31%nat) as [-> ->] by lia. intros [k K]. change (2 ^ Z.of_nat 31) with 2147483648 in K. lia.
  - intros p Hp n r Hr Hl. apply (proj1 (C91_terminates_iff n r Hr)). intros limit s Hl' Hs. apply C91_up_to_96_bits; [|exact Hs].
    assert (32 * Z.of_nat n + Z.of_nat r <= 96).
    { destruct (Z.le_gt_cases (32 * Z.of_nat n + Z.of_nat r) 96) as [|C]; [assumption|exfalso].
      pose proof (Z.pow_le_mono_r 2 96 (32 * Z.of_nat n + Z.of_nat r - 1)). lia. }
    pose proof (Z.pow_le_mono_r 2 (32 * Z.of_nat n + Z.of_nat r) 96).
    assert (0 < 2 ^ (32 * Z.of_nat n + Z.of_nat r - 1)) by (apply Z.pow_pos_nonneg; lia). lia.
Qed.
Print Assumptions C92_bit_lengths.

Example C92_example : (let F : Field := F11 in prime order /\ always_draws order /\ 3 < order /\ Z.gcd 3 (order - 1) = 1) /\
  (let F : Field := F13 in prime order /\ ~ (3 < order /\ Z.gcd 3 (order - 1) = 1) /\ readme_hash 10 [e_wire 1] (mkB 2 [] []) = Panic).
Proof.
  split; cbv zeta.
  - split; [exact prime_F11|]. split; [apply (proj2 (proj2 C92_bit_lengths)); vm_compute; split; congruence|]. vm_compute. auto.
  - split; [exact prime_F13|]. split; [intros [_ H]; vm_compute in H; discriminate|]. vm_compute. reflexivity.
Qed.
