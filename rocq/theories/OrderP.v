(** Arithmetic modulo orders that need not be prime: idempotents, units and elements with a quasi-inverse. *)
From Coq Require Import ZArith List Bool Arith Lia Znumtheory Zpow_facts.
From Verif Require Import Base FieldM FieldP ExprM BuilderM Spec ExprP HonestP SatP SpecOrder PrimeP.
Import ListNotations.
Open Scope Z_scope.

(** ** integers *)
Lemma divide_mod n x : 0 < n -> (x mod n = 0 <-> (n | x)).
Proof. intro H. apply Z.mod_divide. lia. Qed.
Lemma same_mod n x y : 0 < n -> (x mod n = y mod n <-> (n | x - y)).
Proof.
  intro H. split; intro E.
  - apply Z.mod_divide; [lia|]. rewrite Zminus_mod, E, Z.sub_diag. apply Z.mod_0_l. lia.
  - destruct E as [k E]. replace x with (y + k * n) by lia. apply Z.mod_add. lia.
Qed.

(** every integer from 2 on is a power of a prime or a product of two coprime factors *)
Lemma strip p : prime p -> forall k n, (Z.to_nat n <= k)%nat -> 0 < n -> exists e m, 0 <= e /\ n = p ^ e * m /\ ~ (p | m) /\ 0 < m.
Proof.
  intro P. pose proof (prime_ge_2 p P) as P2. induction k as [|k IH]; intros n Hk Hn; [lia|].
  destruct (Zdivide_dec p n) as [[c C]|N].
  - destruct (IH c ltac:(nia) ltac:(nia)) as (e & m & He & E & Hm). exists (e + 1), m. split; [lia|]. split; [|exact Hm].
    rewrite Z.pow_add_r, Z.pow_1_r by lia. nia.
  - exists 0, n. split; [lia|]. split; [rewrite Z.pow_0_r; lia|]. split; [exact N|lia].
Qed.
Lemma power_or_product n : 2 <= n -> prime_power n \/ exists a b, 1 < a /\ 1 < b /\ rel_prime a b /\ n = a * b.
Proof.
  intro Hn. destruct (prime_divisor n ltac:(lia)) as (p & P & D). pose proof (prime_ge_2 p P) as P2.
  destruct (strip p P _ n (le_n _) ltac:(lia)) as (e & m & He & E & N & Hm).
  assert (1 <= e).
  { assert (e <> 0); [|lia]. intros ->. rewrite Z.pow_0_r in E. apply N. replace m with n by lia. exact D. }
  assert (m = 1 \/ 1 < m) as [->|M] by lia.
  - left. exists p, e. split; [exact P|]. split; [assumption|]. lia.
  - right. exists (p ^ e), m. split; [apply Z.pow_gt_1; lia|]. split; [exact M|]. split; [|exact E].
    apply rel_prime_sym, rel_prime_Zpower_r; [lia|]. apply rel_prime_sym. apply prime_rel_prime; assumption.
Qed.

(** modulo a power of a prime the only idempotents are 0 and 1 *)
Lemma power_idempotent n x : prime_power n -> (n | x * (x - 1)) -> (n | x) \/ (n | x - 1).
Proof.
  intros (p & k & P & Hk & ->) D. pose proof (prime_ge_2 p P).
  destruct (Zdivide_dec p x) as [Dx|Nx].
  - left. apply Gauss with (x - 1); [rewrite Z.mul_comm; exact D|]. apply rel_prime_sym, rel_prime_Zpower_r; [lia|]. apply rel_prime_sym.
    apply prime_rel_prime; [exact P|]. intro Dy. assert (D1 : (p | 1)) by (replace 1 with (x - (x - 1)) by lia; apply Z.divide_sub_r; assumption).
    apply Z.divide_1_r_nonneg in D1; lia.
  - right. apply Gauss with x; [exact D|]. apply rel_prime_sym, rel_prime_Zpower_r; [lia|]. apply rel_prime_sym. apply prime_rel_prime; assumption.
Qed.
(** modulo any other number there are more *)
Lemma product_idempotent a b : 1 < a -> 1 < b -> rel_prime a b -> exists x, 0 <= x < a * b /\ x <> 0 /\ x <> 1 /\ (a * b | x * (x - 1)).
Proof.
  intros Ha Hb R. destruct (rel_prime_bezout _ _ R) as [u v E]. exists ((v * b) mod (a * b)).
  assert (0 < a * b) by nia. split; [apply Z.mod_pos_bound; assumption|].
  assert (M : (a * b | (v * b) mod (a * b) - v * b)).
  { apply same_mod; [assumption|]. apply Z.mod_mod. lia. }
  split; [|split].
  - intro C. rewrite C in M. assert (A : (a | 1)).
    { replace 1 with (u * a + v * b) by lia. apply Z.divide_add_r; [exists u; reflexivity|].
      apply (Z.divide_trans _ (a * b)); [exists b; lia|]. replace (v * b) with (- (0 - v * b)) by lia. apply Z.divide_opp_r. exact M. }
    apply Z.divide_1_r_nonneg in A; lia.
  - intro C. rewrite C in M. assert (B : (b | 1)).
    { replace 1 with ((1 - v * b) + v * b) by lia. apply Z.divide_add_r; [|exists v; reflexivity]. apply (Z.divide_trans _ (a * b)); [exists a; lia|exact M]. }
    apply Z.divide_1_r_nonneg in B; lia.
  - destruct M as [t T]. replace ((v * b) mod (a * b)) with (v * b + t * (a * b)) by lia.
    replace ((v * b + t * (a * b)) * (v * b + t * (a * b) - 1)) with (v * b * (v * b - 1) + (a * b) * (t * (2 * v * b - 1 + t * (a * b)))) by ring.
    apply Z.divide_add_r; [|exists (t * (2 * v * b - 1 + t * (a * b))); ring].
    replace (v * b - 1) with (- (u * a)) by lia. exists (- (v * u)). ring.
Qed.

Lemma idempotents n : 2 <= n -> ((forall x, 0 <= x < n -> (n | x * (x - 1)) -> x = 0 \/ x = 1) <-> prime_power n).
Proof.
  intro Hn. split.
  - intro H. destruct (power_or_product n Hn) as [P|(a & b & Ha & Hb & R & ->)]; [exact P|]. exfalso.
    destruct (product_idempotent a b Ha Hb R) as (x & Ix & N0 & N1 & D). destruct (H x Ix D); contradiction.
  - intros P x Ix D. destruct (power_idempotent n x P D) as [[k K]|[k K]]; [left|right].
    + assert (k = 0) by nia. lia.
    + assert (- 1 < k) by nia. assert (k < 1) by nia. lia.
Qed.

(** x has a quasi-inverse m, x m x = x, for every x exactly if no square divides the modulus *)
Lemma quasi_inverse n x : 2 <= n -> square_free n -> exists m, (n | x * m * x - x).
Proof.
  intros Hn S. set (g := Z.gcd x n). assert (Hg : 0 < g).
  { pose proof (Z.gcd_nonneg x n). assert (g <> 0); [|lia]. intro C. apply Z.gcd_eq_0_r in C. lia. }
  destruct (Z.gcd_divide_l x n) as [x' X]. destruct (Z.gcd_divide_r x n) as [h Hh]. fold g in X, Hh.
  assert (0 < h) by nia.
  assert (G : rel_prime g h).
  { apply Zgcd_1_rel_prime. pose proof (Z.gcd_nonneg g h). assert (Z.gcd g h <> 0). { intro C. apply Z.gcd_eq_0_l in C. lia. }
    destruct (Z.eq_dec (Z.gcd g h) 1) as [E|E]; [exact E|]. exfalso. apply (S (Z.gcd g h)); [lia|]. destruct (Z.gcd_divide_l g h) as [s S1]. destruct (Z.gcd_divide_r g h) as [t T1].
    exists (t * s). rewrite Hh, T1 at 1. rewrite S1 at 2. ring. }
  assert (X' : rel_prime x' h).
  { apply Zgcd_1_rel_prime. pose proof (Z.gcd_div_gcd x n g ltac:(lia) eq_refl) as E. rewrite X in E at 1. rewrite Hh in E at 1.
    rewrite !Z.div_mul in E by lia. exact E. }
  assert (R : rel_prime x h). { rewrite X. apply rel_prime_sym, rel_prime_mult; apply rel_prime_sym; assumption. }
  destruct (rel_prime_bezout _ _ R) as [u v E]. exists u.
  replace (x * u * x - x) with (x * (u * x - 1)) by ring. replace (u * x - 1) with (- v * h) by lia. rewrite X, Hh. exists (- v * x'). ring.
Qed.
Lemma no_quasi_inverse n d : 2 <= n -> 1 < d -> (d * d | n) -> exists x, 0 <= x < n /\ forall m, ~ (n | x * m * x - x).
Proof.
  intros Hn Hd [c C]. assert (0 < c) by nia. exists (c * d). split; [nia|]. intros m [k K].
  assert (E : c * d * (c * m * d - 1 - k * d) = 0) by (rewrite C in K; nia).
  apply Z.mul_eq_0 in E. destruct E as [E|E]; [nia|]. assert (D : (d | 1)) by (exists (c * m - k); nia).
  apply Z.divide_1_r_nonneg in D; lia.
Qed.

Lemma prime_iff n : prime n <-> prime_power n /\ square_free n.
Proof.
  split.
  - intro P. pose proof (prime_ge_2 n P). split; [exists n, 1; split; [exact P|]; split; [lia|rewrite Z.pow_1_r; reflexivity]|].
    intros d Hd [c C]. assert (D : (d | n)) by (exists (c * d); lia). destruct (prime_divisors n P d D) as [E|[E|[E|E]]]; [lia|lia| |lia]. subst d.
    assert (0 < c) by nia. nia.
  - intros [(p & k & P & Hk & ->) S]. pose proof (prime_ge_2 p P). destruct (Z.eq_dec k 1) as [->|N]; [rewrite Z.pow_1_r; exact P|].
    exfalso. apply (S p); [lia|]. replace k with (2 + (k - 2)) by lia. rewrite Z.pow_add_r by lia. exists (p ^ (k - 2)). rewrite Z.pow_2_r. ring.
Qed.
Lemma prime_units n : 2 <= n -> ((forall x, 0 < x < n -> Z.gcd x n = 1) <-> prime n).
Proof.
  intro Hn. split.
  - intro H. apply prime_intro; [lia|]. intros x Hx. apply Zgcd_1_rel_prime, H. lia.
  - intros P x Hx. apply Zgcd_1_rel_prime. apply rel_prime_le_prime; [exact P|lia].
Qed.
