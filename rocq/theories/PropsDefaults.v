(** C78: what RescueBuilder chooses when left to itself.  C79: the default MiMC cipher and MiMCPermutation. *)
From Coq Require Import ZArith List Bool Arith Lia Znumtheory.
From Verif Require Import Base FieldM FieldP PrimeP PolyP ExprM BuilderM GadgetsM CryptoM Spec SpecCrypto MonoP CoreP CryptoP MatrixP Demo PropsCore PropsCrypto PropsMix PropsReadme.
Import ListNotations.
Open Scope Z_scope.

(** ** C78 *)
Section Alpha.
Context {F : Field}.

(** More fuel does not change an answer. *)
Lemma is_prime_loop_fuel f : forall f' x d b, (f <= f')%nat -> is_prime_loop f x d = Ok b -> is_prime_loop f' x d = Ok b.
Proof.
  induction f as [|f IH]; intros f' x d b L E; [discriminate|]. destruct f' as [|f']; [lia|]. cbn [is_prime_loop] in *.
  destruct (fmul d d <=? x); [|exact E]. destruct (integer_modulus x d) as [r| |]; cbn [obind] in *; try discriminate.
  destruct (r =? 0); [exact E|]. apply (IH f'); [lia|exact E].
Qed.
Lemma is_prime_fuel f f' x b : (f <= f')%nat -> is_prime f x = Ok b -> is_prime f' x = Ok b.
Proof. unfold is_prime. intros L E. destruct (el_from 2) as [t| |]; cbn [obind] in *; try discriminate. exact (is_prime_loop_fuel f f' x t b L E). Qed.
Lemma next_prime_fuel f : forall f' x a, (f <= f')%nat -> next_prime_loop f x = Ok a -> next_prime_loop f' x = Ok a.
Proof.
  induction f as [|f IH]; intros f' x a L E; [discriminate|]. destruct f' as [|f']; [lia|]. cbn [next_prime_loop] in *.
  destruct (is_prime (S f) x) as [b| |] eqn:P; cbn [obind] in E; try discriminate. rewrite (is_prime_fuel (S f) (S f') x b L P). cbn [obind].
  destruct b; [exact E|]. apply (IH f'); [lia|exact E].
Qed.
Lemma smallest_alpha_loop_fuel f : forall f' x a, (f <= f')%nat -> smallest_alpha_loop f x = Ok a -> smallest_alpha_loop f' x = Ok a.
Proof.
  induction f as [|f IH]; intros f' x a L E; [discriminate|]. destruct f' as [|f']; [lia|]. cbn [smallest_alpha_loop] in *.
  destruct (fgcd largest_element x) as [g| |]; cbn [obind] in *; try discriminate. destruct (g =? 1); [exact E|].
  destruct (next_prime_loop (S f) (fadd x fone)) as [y| |] eqn:N; cbn [obind] in E; try discriminate. rewrite (next_prime_fuel (S f) (S f') _ y L N). cbn [obind].
  apply (IH f'); [lia|exact E].
Qed.
Lemma smallest_alpha_fuel f f' a : (f <= f')%nat -> smallest_alpha f = Ok a -> smallest_alpha f' = Ok a.
Proof. unfold smallest_alpha. intros L E. destruct (el_from 3) as [t| |]; cbn [obind] in *; try discriminate. exact (smallest_alpha_loop_fuel f f' t a L E). Qed.

(** The primes [is_prime] recognizes. *)
Definition accepted (x : Z) : Prop := prime x /\ exists d, 2 <= d <= x /\ x < (d * d) mod order.

Lemma next_prime_hit (H2 : 2 < order) a : accepted a -> a < order -> forall fuel x, 2 <= x <= a -> 2 * a - x < Z.of_nat fuel ->
  exists y, x <= y <= a /\ prime y /\ next_prime_loop fuel x = Ok y.
Proof.
  intros A La. induction fuel as [|f IH]; intros x Hx Hf; [lia|]. cbn [next_prime_loop].
  destruct (C04_is_prime_partial F H2 x (S f) ltac:(lia) ltac:(lia)) as (b & -> & Hb & _). cbn [obind]. destruct b.
  - exists x. split; [lia|]. split; [apply Hb; reflexivity|reflexivity].
  - assert (x <> a). { intros ->. destruct Hb as [_ Hb]. specialize (Hb A). discriminate. }
    unfold fadd, fone. rewrite Z.mod_small by lia. destruct (IH (x + 1)) as (y & Hy & Py & E); [lia|lia|]. exists y. split; [lia|auto].
Qed.
Lemma smallest_alpha_hit (H2 : 2 < order) a : accepted a -> a < order -> Z.gcd a (order - 1) = 1 ->
  (forall q, prime q -> Z.gcd q (order - 1) = 1 -> a <= q) ->
  forall fuel x, prime x -> x <= a -> 2 * a - x < Z.of_nat fuel -> smallest_alpha_loop fuel x = Ok a.
Proof.
  intros A La Ga Min. induction fuel as [|f IH]; intros x Px Hx Hf; [pose proof (prime_ge_2 x Px); lia|]. pose proof (prime_ge_2 x Px). cbn [smallest_alpha_loop].
  unfold largest_element. rewrite fgcd_ok by lia. cbn [obind]. rewrite Z.gcd_comm. destruct (Z.eqb_spec (Z.gcd x (order - 1)) 1) as [G|G].
  - f_equal. specialize (Min x Px G). lia.
  - assert (x <> a) by (intros ->; contradiction). unfold fadd, fone. rewrite Z.mod_small by lia.
    destruct (next_prime_hit H2 a A La (S f) (x + 1)) as (y & Hy & Py & E); [lia|lia|]. rewrite E. cbn [obind]. apply IH; [exact Py|lia|lia].
Qed.

(** The least prime that does not divide the order minus one. *)
Lemma least_coprime n : 2 < n -> exists a, prime a /\ Z.gcd a n = 1 /\ forall q, prime q -> Z.gcd q n = 1 -> a <= q.
Proof.
  intro Hn. assert (E : exists q, prime q /\ Z.gcd q n = 1).
  { destruct (prime_divisor (n - 1) ltac:(lia)) as (q & Pq & [k D]). exists q. split; [exact Pq|]. apply Zgcd_1_rel_prime. apply prime_rel_prime; [exact Pq|].
    intros [j J]. pose proof (prime_ge_2 q Pq). assert (E1 : (j - k) * q = 1) by lia. apply Z.mul_eq_1 in E1. lia. }
  assert (H : forall m, 0 <= m -> (forall q, prime q -> Z.gcd q n = 1 -> m <= q) \/ exists a, prime a /\ Z.gcd a n = 1 /\ forall q, prime q -> Z.gcd q n = 1 -> a <= q).
  { apply (natlike_ind (fun m => (forall q, prime q -> Z.gcd q n = 1 -> m <= q) \/ exists a, prime a /\ Z.gcd a n = 1 /\ forall q, prime q -> Z.gcd q n = 1 -> a <= q)).
    - left. intros q Pq _. pose proof (prime_ge_2 q Pq). lia.
    - intros m Hm [L|R]; [|right; exact R]. destruct (prime_dec m) as [P|P].
      + destruct (Z.eq_dec (Z.gcd m n) 1) as [G|G]; [right; exists m; auto|]. left. intros q Pq Gq. specialize (L q Pq Gq). assert (q <> m) by (intros ->; contradiction). lia.
      + left. intros q Pq Gq. specialize (L q Pq Gq). assert (q <> m) by (intros ->; contradiction). lia. }
  destruct E as (q & Pq & Gq). pose proof (prime_ge_2 q Pq). destruct (H (q + 1) ltac:(lia)) as [L|R]; [|exact R]. specialize (L q Pq Gq). lia.
Qed.
Lemma not_coprime_divides q n : prime q -> Z.gcd q n <> 1 -> (q | n).
Proof. intros P G. destruct (Zdivide_dec q n) as [D|D]; [exact D|]. exfalso. apply G, Zgcd_1_rel_prime, prime_rel_prime; assumption. Qed.
Lemma odd_coprime_bound n q : (2 | n) -> 4 <= n -> prime q -> (forall r, prime r -> Z.gcd r n = 1 -> q <= r) -> 2 * q <= n + 4.
Proof.
  intros [m Hm] Hn Pq Min. subst n.
  assert (B : forall x, 1 < x <= m + 2 -> Z.gcd x (m * 2) = 1 -> 2 * q <= m * 2 + 4).
  { intros x Hx G. destruct (prime_divisor x ltac:(lia)) as (r & Pr & D). specialize (Min r Pr). pose proof (Z.divide_pos_le r x ltac:(lia) D).
    assert (Gr : Z.gcd r (m * 2) = 1). { apply Zgcd_1_rel_prime. apply Zgcd_1_rel_prime in G. eapply rel_prime_div; eauto. } specialize (Min Gr). lia. }
  destruct (Z.Even_or_Odd m) as [[k Hk]|[k Hk]].
  - apply (B (m + 1)); [lia|]. apply Zgcd_1_rel_prime. apply bezout_rel_prime. apply (Bezout_intro _ _ 1 (1 - m) k). subst m. ring.
  - apply (B (m + 2)); [lia|]. apply Zgcd_1_rel_prime, bezout_rel_prime. subst m. apply (Bezout_intro _ _ 1 (2 * k + 3 - 2 * (k + 1) * (k + 2)) ((k + 1) * (k + 2))). ring.
Qed.
Lemma prime_5 : prime 5.
Proof. exact prime_F5. Qed.

Lemma alpha_bound (Hp : prime order) : 5 <= order -> order <> 7 -> forall a, prime a -> Z.gcd a (order - 1) = 1 ->
  (forall q, prime q -> Z.gcd q (order - 1) = 1 -> a <= q) -> 3 <= a < order /\ accepted a.
Proof.
  intros H5 H7 a Pa Ga Min. pose proof (prime_ge_2 a Pa) as A2.
  assert (E2 : (2 | order - 1)).
  { destruct (Z.Even_or_Odd order) as [[k K]|[k K]]; [|exists k; lia]. exfalso. assert (D : (2 | order)) by (exists k; lia). destruct (prime_divisors _ Hp 2 D) as [|[|[|]]]; lia. }
  assert (A3 : 3 <= a). { assert (a <> 2); [|lia]. intros ->. apply Zgcd_1_rel_prime in Ga. destruct Ga as [_ _ G]. specialize (G 2 ltac:(exists 1; lia) E2). destruct G as [g G]. lia. }
  assert (B : 2 * a <= order + 3). { pose proof (odd_coprime_bound (order - 1) a E2 ltac:(lia) Pa Min). lia. }
  assert (D3 : 3 < a -> (3 | order - 1)). { intro L. apply not_coprime_divides; [exact prime_3|]. intro G. specialize (Min 3 prime_3 G). lia. }
  assert (D5 : 5 < a -> (5 | order - 1)). { intro L. apply not_coprime_divides; [exact prime_5|]. intro G. specialize (Min 5 prime_5 G). lia. }
  assert (S : (Z.sqrt a + 1) * (Z.sqrt a + 1) < order).
  { pose proof (Z.sqrt_spec a ltac:(lia)) as S. pose proof (Z.sqrt_nonneg a). unfold Z.succ in S. set (s := Z.sqrt a) in *.
    destruct (Z.le_gt_cases 11 a) as [L|L].
    - assert (3 <= s) by nia. assert (2 * s + 4 < a) by (destruct (Z.eq_dec s 3); [lia|nia]). nia.
    - assert (s <= 3) by nia. assert (C : a = 3 \/ a = 5 \/ a = 7 \/ a = 4 \/ a = 6 \/ a = 8 \/ a = 9 \/ a = 10) by lia. destruct C as [->|[->|[->|C]]].
      + assert (s <= 1) by nia. nia.
      + assert (s <= 2) by nia. destruct (D3 ltac:(lia)) as [k K]. destruct E2 as [j J]. assert (order <> 5) by lia. assert (order <> 6) by lia.
        assert (order <> 8) by lia. assert (order <> 9) by lia. assert (9 < order) by lia. nia.
      + assert (s <= 2) by nia. destruct (D3 ltac:(lia)) as [k K]. destruct (D5 ltac:(lia)) as [i I]. destruct E2 as [j J]. assert (9 < order) by lia. nia.
      + exfalso. assert (N : forall d, (d | a) -> d = 1 \/ d = a \/ d <= 0). { intros d D. destruct (prime_divisors _ Pa d D) as [|[|[|]]]; lia. }
        destruct C as [->|[->|[->|[->| ->]]]]; [specialize (N 2 ltac:(exists 2; lia))|specialize (N 2 ltac:(exists 3; lia))|specialize (N 2 ltac:(exists 4; lia))|
          specialize (N 3 ltac:(exists 3; lia))|specialize (N 2 ltac:(exists 5; lia))]; lia. }
  pose proof (Z.sqrt_spec a ltac:(lia)) as S'. pose proof (Z.sqrt_nonneg a). unfold Z.succ in S'. split; [nia|]. split; [exact Pa|].
  exists (Z.sqrt a + 1). rewrite Z.mod_small by nia. nia.
Qed.
End Alpha.

(** The exponent chosen when none is given is the least prime a for which a-th powers permute the field: in every prime field of 5 elements or
    more, except 7.  No answer is another one. *)
Theorem C78_alpha : forall (F : Field), prime order -> 5 <= order -> order <> 7 ->
  exists a, prime a /\ 3 <= a < order /\ permutes (fun x => (x ^ a) mod order) /\
    (forall q, prime q -> permutes (fun x => (x ^ q) mod order) -> a <= q) /\
    (forall fuel, (2 * Z.to_nat a <= fuel)%nat -> smallest_alpha fuel = Ok a) /\
    (forall fuel a', smallest_alpha fuel = Ok a' -> a' = a).
Proof.
  intros F Hp H5 H7. assert (H4 : 2 < order - 1) by lia. destruct (least_coprime (order - 1) H4) as (a & Pa & Ga & Min). destruct (alpha_bound Hp H5 H7 a Pa Ga Min) as [Ba Aa].
  assert (R : forall fuel, (2 * Z.to_nat a <= fuel)%nat -> smallest_alpha fuel = Ok a).
  { intros fuel Hf. unfold smallest_alpha, el_from. destruct (Z.ltb_spec 3 order); [|lia]. cbn [obind]. apply smallest_alpha_hit; try assumption; try lia. exact prime_3. }
  exists a. split; [exact Pa|]. split; [exact Ba|]. split; [apply (power_permutes Hp a); [lia|rewrite Z.gcd_comm; exact Ga]|]. split; [|split; [exact R|]].
  - intros q Pq (_ & I & _). apply Min; [exact Pq|]. apply (power_injective Hp); [pose proof (prime_ge_2 q Pq); lia|exact I].
  - intros fuel a' E. apply (smallest_alpha_fuel fuel (Nat.max fuel (2 * Z.to_nat a)) a' ltac:(lia)) in E. rewrite R in E by lia. congruence.
Qed.
Print Assumptions C78_alpha.

(** In the field of 7 elements the answer is 1, because 5 is taken for composite and 1 for a prime (C04); a Rescue instance with exponent 1 panics on
    every non-empty state.  In the fields of 2 and 3 elements there is no answer. *)
Theorem C78_alpha_refuted : (exists fuel, @smallest_alpha F7 fuel = Ok 1) /\ (forall fuel a, @smallest_alpha F7 fuel = Ok a -> a = 1) /\
  (forall (F : Field), prime order -> 2 < order -> forall q xs b out b', res_alpha q = 1 -> (0 < res_rounds q)%nat -> res_mds q <> [] ->
     rescue_permute q xs b = Ok (out, b') -> xs = []) /\
  (forall (F : Field) fuel, 0 < order <= 3 -> smallest_alpha fuel = Panic).
Proof.
  assert (E20 : @smallest_alpha F7 20 = Ok 1) by reflexivity. split; [exists 20%nat; exact E20|]. split; [|split].
  - intros fuel a E. apply (@smallest_alpha_fuel F7 fuel (Nat.max fuel 20) a ltac:(lia)) in E. rewrite (@smallest_alpha_fuel F7 20 (Nat.max fuel 20) 1 ltac:(lia) E20) in E. congruence.
  - intros F Hp H2 q xs b out b' Ha HR Hm E. destruct xs as [|x xs]; [reflexivity|exfalso]. unfold rescue_permute in E. destruct (res_rounds q) as [|n]; [lia|]. cbn [seq bfold] in E.
    unfold bbind at 1 in E. destruct ((c1 <- bmap (rescue_pi1 q) (x :: xs) ;; c2 <- bmap (rescue_pi2 q) (matrix_mul (res_mds q) c1) ;; bret (matrix_mul (res_mds q) c2)) b) as [[c b1]| |] eqn:E1; try discriminate.
    unfold bbind at 1 in E1. destruct (bmap (rescue_pi1 q) (x :: xs) b) as [[c1 b2]| |] eqn:E2; try discriminate.
    assert (exists y ys, c1 = y :: ys) as (y & ys & ->).
    { cbn [bmap] in E2. unfold bbind at 1 in E2. destruct (rescue_pi1 q x b) as [[y b3]| |]; try discriminate. unfold bbind at 1 in E2. destruct (bmap (rescue_pi1 q) xs b3) as [[ys b4]| |]; try discriminate.
      inversion E2. eauto. }
    destruct (C42_inverse_of_one_panics_refuted F Hp H2) as [N1 N2].
    assert (P2 : forall z c, rescue_pi2 q z c = Panic) by (intros z c0; unfold rescue_pi2, bbind, blift; rewrite Ha, N1; apply N2).
    destruct (res_mds q) as [|row rows]; [congruence|]. unfold bbind in E1 at 1.
    assert (X : bmap (rescue_pi2 q) (matrix_mul (row :: rows) (y :: ys)) b2 = Panic) by (unfold matrix_mul; cbn [combine map bmap]; unfold bbind; rewrite P2; reflexivity).
    rewrite X in E1. discriminate.
  - intros F fuel Ho. unfold smallest_alpha, el_from. destruct (Z.ltb_spec 3 order); [lia|reflexivity].
Qed.
Print Assumptions C78_alpha_refuted.

(** The default number of rounds: twice the least h with security_bits <= 4 * width * h, and at least 10. *)
Theorem C78_rounds : forall bits width, (0 < width)%nat ->
  exists h, rescue_secure_rounds bits width = Nat.max (2 * h) 10 /\ (bits <= 4 * width * h)%nat /\ forall h', (bits <= 4 * width * h')%nat -> (h <= h')%nat.
Proof.
  intros bits width Hw. exists ((bits + 4 * width - 1) / (4 * width))%nat. set (m := (4 * width)%nat). assert (0 < m)%nat by lia.
  split; [unfold rescue_secure_rounds; fold m; f_equal; lia|]. split.
  - pose proof (Nat.div_mod (bits + m - 1) m ltac:(lia)) as D. pose proof (Nat.mod_upper_bound (bits + m - 1) m ltac:(lia)). lia.
  - intros h' Hh. apply Nat.lt_succ_r. apply Nat.div_lt_upper_bound; [lia|]. nia.
Qed.
Print Assumptions C78_rounds.

(** [build] hands over exactly what was set, fills in the rest as above, and never succeeds without a matrix, for width 0, or when both a number of
    rounds and a security level were given. *)
Theorem C78_build : forall (F : Field) fuel width alpha rounds bits mds q, rescue_build fuel width alpha rounds bits mds = Ok q <->
  (0 < width)%nat /\ res_width q = width /\ mds = Some (res_mds q) /\
  match alpha with Some a => res_alpha q = a | None => smallest_alpha fuel = Ok (res_alpha q) end /\
  match rounds, bits with
  | Some n, None => res_rounds q = n
  | Some _, Some _ => False
  | None, Some s => res_rounds q = rescue_secure_rounds s width
  | None, None => res_rounds q = rescue_secure_rounds 128 width
  end.
Proof.
  intros F fuel width alpha rounds bits mds [w a r m]. unfold rescue_build. cbn [res_width res_mds res_alpha res_rounds].
  destruct (Nat.ltb_spec 0 width) as [L|L]; cbn [oassert obind]; [|split; [discriminate|intros (? & _); lia]].
  destruct alpha as [a0|].
  - cbn [obind]. destruct mds as [m0|]; cbn [ounwrap obind].
    + destruct rounds as [n|], bits as [s|]; split; try discriminate; try (intro E; inversion E; subst; repeat split; auto; fail);
        intros (_ & -> & E1 & <- & E2); try contradiction; inversion E1; subst; reflexivity.
    + split; [discriminate|]. intros (_ & _ & E & _). discriminate.
  - destruct (smallest_alpha fuel) as [a0| |]; cbn [obind]; try (split; [discriminate|]; intros (_ & _ & _ & E & _); discriminate).
    destruct mds as [m0|]; cbn [ounwrap obind].
    + destruct rounds as [n|], bits as [s|]; split; try discriminate; try (intro E; inversion E; subst; repeat split; auto; fail);
        intros (_ & -> & E1 & E0 & E2); try contradiction; inversion E0; inversion E1; subst; reflexivity.
    + split; [discriminate|]. intros (_ & _ & E & _). discriminate.
Qed.
Print Assumptions C78_build.

(** So a Rescue instance built from a matrix alone permutes the states: equal outputs come from equal inputs in any two satisfying assignments. *)
Theorem C78_default_binding : forall (F : Field), prime order -> 5 <= order -> order <> 7 -> forall fuel width bits mds q,
  rescue_build fuel width None None bits (Some mds) = Ok q -> rows_usable mds -> forall xs b out b' w1 w2, length xs = length mds ->
  rescue_permute q xs b = Ok (out, b') -> wf_witness w1 -> wf_witness w2 -> sat w1 b' -> sat w2 b' ->
  (map (ev w1) out = map (ev w2) out <-> map (ev w1) xs = map (ev w2) xs).
Proof.
  intros F Hp H5 H7 fuel width bits mds q E U xs b out b' w1 w2 L. apply C78_build in E. destruct E as (_ & _ & Em & Ea & Er). injection Em as ->.
  destruct (C78_alpha F Hp H5 H7) as (a & Pa & Ba & (_ & I & _) & _ & _ & Un). apply Un in Ea.
  assert (G : Z.gcd a (order - 1) = 1) by (apply (power_injective Hp); [lia|exact I]). rewrite Z.gcd_comm in G.
  apply (C75_rescue_binding F Hp q); try assumption; rewrite ?Ea; try lia.
  destruct bits; rewrite Er; unfold rescue_secure_rounds; lia.
Qed.
Print Assumptions C78_default_binding.

(** Both shipped fields get 5; 97 and 31 need 5 and 7. *)
Example C78_example : @smallest_alpha Bn128 10 = Ok 5 /\ @smallest_alpha Bls12_381 10 = Ok 5 /\ @smallest_alpha F97 10 = Ok 5 /\ @smallest_alpha F31 14 = Ok 7 /\
  rescue_secure_rounds 128 3 = 22%nat /\ rescue_secure_rounds 128 12 = 10%nat /\
  match @rescue_build F97 10 2 None None None (Some [[1; 2]; [3; 1]]) with Ok q => res_alpha q = 5 /\ res_rounds q = 32%nat | _ => False end.
Proof. vm_compute. repeat split; reflexivity. Qed.

(** ** C79 *)
(** The number of constants in the default MiMC cipher is the least r with 2^bits <= 3^r. *)
Theorem C79_rounds : forall (F : Field), 2 <= order -> 2 ^ Z.of_nat max_bits <= 3 ^ Z.of_nat mimc_recommended_rounds /\
  forall r, 2 ^ Z.of_nat max_bits <= 3 ^ Z.of_nat r -> (mimc_recommended_rounds <= r)%nat.
Proof.
  intros F H2. unfold mimc_recommended_rounds. set (n := Z.of_nat max_bits).
  assert (H : forall fuel r, (max_bits <= r + fuel)%nat -> (forall r', 2 ^ n <= 3 ^ Z.of_nat r' -> (r <= r')%nat) ->
    2 ^ n <= 3 ^ Z.of_nat (mimc_rounds_loop fuel r n) /\ forall r', 2 ^ n <= 3 ^ Z.of_nat r' -> (mimc_rounds_loop fuel r n <= r')%nat).
  { induction fuel as [|f IH]; intros r L M; cbn [mimc_rounds_loop].
    - split; [|exact M]. apply Z.le_trans with (3 ^ n); [apply Z.pow_le_mono_l; lia|apply Z.pow_le_mono_r; lia].
    - destruct (Z.leb_spec (2 ^ n) (3 ^ Z.of_nat r)) as [C|C]; [split; auto|]. apply IH; [lia|]. intros r' Hr. specialize (M r' Hr).
      assert (r <> r') by (intros ->; lia). lia. }
  apply H; [lia|]. intros; lia.
Qed.
Print Assumptions C79_rounds.

(** The default cipher is MiMC over that many constants, all of them field elements: one round more than the recommended number, since the first
    round has no constant. *)
Theorem C79_default : forall (F : Field), prime order -> forall fuel c, mimc_default fuel = Ok c ->
  exists cs, lcg_elements fuel mimc_recommended_rounds lcg_new = Ok cs /\ mimc_new cs = Ok c /\ length cs = mimc_recommended_rounds /\ good_inputs cs /\
    forall k x, sound_call (encrypt c k x) (fun w r => ev w r = mimc_fun 3 cs (ev w k) (ev w x)).
Proof.
  intros F Hp fuel c E. pose proof (prime_ge_2 order Hp) as H2. unfold mimc_default in E. destruct (lcg_elements fuel mimc_recommended_rounds lcg_new) as [cs| |] eqn:E1; try discriminate. cbn [obind] in E.
  destruct (lcg_elements_field fuel _ H2 lcg_new cs ltac:(vm_compute; split; congruence) E1) as [Lc Ic]. exists cs. split; [reflexivity|]. split; [exact E|]. split; [exact Lc|]. split; [exact Ic|].
  exact (C43_encrypt_value F Hp cs c Ic E).
Qed.
Print Assumptions C79_default.

(** MiMCPermutation is MiMC under the key zero, and its two directions undo each other: in every satisfying assignment and in every run. *)
Theorem C79_permutation : forall (F : Field), prime order -> forall cs c, good_inputs cs -> mimc_new cs = Ok c -> forall x,
  sound_call (permute (mimc_permutation c) x) (fun w r => ev w r = mimc_fun 3 cs 0 (ev w x)) /\
  sound_call (y <- permute (mimc_permutation c) x ;; p_inverse (mimc_permutation c) y) (fun w r => ev w r = ev w x) /\
  sound_call (y <- p_inverse (mimc_permutation c) x ;; permute (mimc_permutation c) y) (fun w r => ev w r = ev w x).
Proof.
  intros F Hp cs c Hc E x. cbn [permute p_inverse mimc_permutation]. destruct (C43_decrypt_encrypt F Hp cs c Hc E e_zero x) as [A B]. split; [|split; [exact A|exact B]].
  exact (C43_encrypt_value F Hp cs c Hc E e_zero x).
Qed.
Print Assumptions C79_permutation.
Theorem C79_permutation_runs : forall (F : Field), prime order -> forall cs c, good_inputs cs -> mimc_new cs = Ok c -> forall vals x, good_inputs vals -> on_inputs vals x ->
  runs vals (permute (mimc_permutation c) x) (fun r v => e_evaluate v r = Ok (mimc_fun 3 cs 0 (wv vals x))) /\
  runs vals (y <- permute (mimc_permutation c) x ;; p_inverse (mimc_permutation c) y) (fun r v => e_evaluate v r = Ok (wv vals x)) /\
  runs vals (y <- p_inverse (mimc_permutation c) x ;; permute (mimc_permutation c) y) (fun r v => e_evaluate v r = Ok (wv vals x)).
Proof.
  intros F Hp cs c Hc E vals x Hv Hx. cbn [permute p_inverse mimc_permutation].
  assert (Z0 : on_inputs vals e_zero) by (intros k []). exact (C43_runs F Hp cs c Hc E vals e_zero x Hv Z0 Hx).
Qed.
Print Assumptions C79_permutation_runs.

Example C79_example : @mimc_recommended_rounds Bn128 = 161%nat /\ let F : Field := F11 in mimc_recommended_rounds = 3%nat /\
  match mimc_default 10 with Ok c => demo [3] (permute (mimc_permutation c) (e_wire 1)) (fun r => [r]) = Ok (true, [9]) | _ => False end.
Proof. vm_compute. repeat split; reflexivity. Qed.

(** ** What the constructors accept *)
(** MonomialPermutation::new accepts exactly the exponents whose powers permute the field (1 <= n; every exponent of a field element but 0). *)
Theorem C42_new_exact : forall (F : Field), prime order -> forall n, 1 <= n < order ->
  (monomial_new n = Ok n <-> permutes (fun x => (x ^ n) mod order)) /\ (monomial_new n = Panic <-> ~ permutes (fun x => (x ^ n) mod order)).
Proof.
  intros F Hp n Hn. rewrite (C42_new F Hp n ltac:(lia)).
  assert (P : Z.gcd n (order - 1) = 1 <-> permutes (fun x => (x ^ n) mod order)).
  { split; [|intros (_ & I & _); apply (power_injective Hp); [lia|exact I]]. intro G. destruct (Z.eq_dec n 1) as [->|N]; [|apply (power_permutes Hp n); [lia|rewrite Z.gcd_comm; exact G]].
    assert (E : forall a, 0 <= a < order -> (a ^ 1) mod order = a) by (intros a Ha; rewrite Z.pow_1_r; apply Z.mod_small, Ha).
    split; [intros a Ha; rewrite E; assumption|]. split; [intros a b Ha Hb; rewrite !E by assumption; auto|intros b Hb; exists b; auto]. }
  destruct (Z.eqb_spec (Z.gcd n (order - 1)) 1) as [G|G].
  - split; split; intro H; try reflexivity; try (apply P, G); [discriminate|]. exfalso. apply H, P, G.
  - split; split; intro H; try reflexivity; try discriminate; [exfalso; apply G, P, H|]. intro C. apply G, P, C.
Qed.
Print Assumptions C42_new_exact.

(** The default S-box of Poseidon permutes the field: cubing if that permutes it, else fifth powers if those do, else inversion. *)
Theorem C75_default_sbox : forall (F : Field), prime order -> 3 < order ->
  exists sb, poseidon_default_sbox = Ok sb /\ permutes (sbox_fun sb) /\
    (sb = Exponentiation3 <-> permutes (fun x => (x ^ 3) mod order)) /\
    (sb = Exponentiation5 <-> ~ permutes (fun x => (x ^ 3) mod order) /\ permutes (fun x => (x ^ 5) mod order)).
Proof.
  intros F Hp H3.
  assert (P : forall n, 2 <= n < order -> Z.gcd (order - 1) n = 1 <-> permutes (fun x => (x ^ n) mod order)).
  { intros n Hn. split; [intro G; apply (power_permutes Hp n Hn G)|]. intros (_ & I & _). rewrite Z.gcd_comm. apply (power_injective Hp); [lia|exact I]. }
  unfold poseidon_default_sbox, el_from. destruct (Z.ltb_spec 3 order); [|lia]. cbn [obind]. unfold largest_element. rewrite fgcd_ok by lia. cbn [obind].
  assert (P3 := P 3 ltac:(lia)). destruct (Z.eqb_spec (Z.gcd (order - 1) 3) 1) as [G|G].
  - exists Exponentiation3. split; [reflexivity|]. split; [apply P3, G|]. split; split; intro HX; try reflexivity; try (apply P3, G); [discriminate|]. exfalso. apply (proj1 HX), P3, G.
  - assert (L5 : 5 < order).
    { assert (order <> 5). { intro C. apply G. rewrite C. reflexivity. } assert (order <> 4). { intro C. assert (D : (2 | order)) by (exists 2; lia). destruct (prime_divisors _ Hp 2 D) as [|[|[|]]]; lia. } lia. }
    destruct (Z.ltb_spec 5 order); [|lia]. cbn [obind]. rewrite fgcd_ok by lia. cbn [obind]. assert (P5 := P 5 ltac:(lia)).
    assert (N3 : ~ permutes (fun x => (x ^ 3) mod order)) by (intro C; apply G, P3, C).
    destruct (Z.eqb_spec (Z.gcd (order - 1) 5) 1) as [G'|G'].
    + exists Exponentiation5. split; [reflexivity|]. split; [apply P5, G'|]. split; split; intro HX; try discriminate; try reflexivity; [contradiction|]. split; [exact N3|apply P5, G'].
    + exists Inverse. split; [reflexivity|]. split; [apply (C75_sboxes F Hp ltac:(lia) Inverse); exact I|]. split; split; intro HX; try discriminate; [contradiction|].
      exfalso. apply G', P5, HX.
Qed.
Print Assumptions C75_default_sbox.
