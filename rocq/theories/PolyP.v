(** A polynomial of degree n has at most n roots modulo a prime; which powers permute the field. *)
From Coq Require Import ZArith List Bool Arith Lia Znumtheory Zpow_facts.
From Verif Require Import Base FieldM FieldP ExprM BuilderM CryptoM Spec SpecCrypto CryptoP.
Import ListNotations.
Open Scope Z_scope.

(** Coefficients, constant term first. *)
Fixpoint peval (l : list Z) (x : Z) : Z := match l with [] => 0 | c :: l => c + x * peval l x end.
Fixpoint pquot (r : Z) (l : list Z) : list Z :=
  match l with [] => [] | c :: l => match l with [] => [] | _ => peval l r :: pquot r l end end.

Lemma pquot_cons r c d l : pquot r (c :: d :: l) = peval (d :: l) r :: pquot r (d :: l).
Proof. reflexivity. Qed.
Lemma pquot_length r c l : length (pquot r (c :: l)) = length l.
Proof. revert c. induction l as [|d l IH]; intro c; [reflexivity|]. rewrite pquot_cons. cbn [length]. rewrite IH. reflexivity. Qed.
Lemma pquot_eval r l x : peval l x - peval l r = (x - r) * peval (pquot r l) x.
Proof.
  induction l as [|c [|d l] IH]; [cbn; ring|cbn; ring|]. rewrite pquot_cons. cbn [peval] in *. 
  replace (c + x * (d + x * peval l x) - (c + r * (d + r * peval l r))) with (x * (d + x * peval l x - (d + r * peval l r)) + (x - r) * (d + r * peval l r)) by ring.
  rewrite IH. ring.
Qed.
Lemma pquot_last r c l : l <> [] -> last (pquot r (c :: l)) 0 = last l 0.
Proof.
  revert c. induction l as [|d [|e l] IH]; intros c N; [contradiction|cbn; ring|]. rewrite pquot_cons. specialize (IH d ltac:(discriminate)).
  rewrite pquot_cons in *. change (last (peval (d :: e :: l) r :: peval (e :: l) r :: pquot r (e :: l)) 0) with (last (peval (e :: l) r :: pquot r (e :: l)) 0).
  rewrite IH. reflexivity.
Qed.
Lemma roots_bound p : prime p -> forall l, last l 0 mod p <> 0 -> forall rs, NoDup rs -> Forall (fun r => 0 <= r < p /\ peval l r mod p = 0) rs ->
  (length rs < length l)%nat.
Proof.
  intro Hp. pose proof (prime_ge_2 p Hp) as P2. intro l. remember (length l) as n. revert l Heqn. induction n as [|n IH]; intros l Hn HL rs ND HR.
  - destruct l; [|discriminate]. cbn [last] in HL. rewrite Z.mod_0_l in HL; lia.
  - destruct l as [|c l]; [discriminate|]. injection Hn as Hn. destruct rs as [|r rs]; [cbn; lia|]. cbn [length]. apply -> Nat.succ_lt_mono.
    inversion HR as [|? ? [Hr Er] HR']; subst. inversion ND as [|? ? NI ND']; subst. destruct l as [|d l].
    + exfalso. cbn [last peval] in HL, Er. rewrite Z.mul_0_r, Z.add_0_r in Er. contradiction.
    + apply (IH (pquot r (c :: d :: l))); auto.
      * rewrite pquot_length. reflexivity.
      * rewrite pquot_last by discriminate. exact HL.
      * rewrite Forall_forall in *. intros s Hs. destruct (HR' s Hs) as [Is Es]. split; [exact Is|].
        pose proof (pquot_eval r (c :: d :: l) s) as E. apply Z.mod_divide in Es; [|lia]. apply Z.mod_divide in Er; [|lia].
        assert (D : (p | (s - r) * peval (pquot r (c :: d :: l)) s)) by (rewrite <- E; apply Z.divide_sub_r; assumption).
        apply prime_mult in D; [|exact Hp]. apply Z.mod_divide; [lia|]. destruct D as [[k D]|D]; [|exact D]. exfalso. apply NI.
        assert (k = 0) by nia. assert (s = r) by nia. subst s. exact Hs.
Qed.

Lemma peval_monomial n x : peval (repeat 0 n ++ [1]) x = x ^ Z.of_nat n.
Proof.
  induction n as [|n IH]; [cbn [repeat app peval]; rewrite Z.mul_0_r; reflexivity|]. cbn [repeat app peval]. rewrite IH, Nat2Z.inj_succ, Z.pow_succ_r by lia. ring.
Qed.
Lemma powers_one p : prime p -> forall n, 1 <= n -> (forall x, 1 <= x < p -> (x ^ n) mod p = 1) -> p - 1 <= n.
Proof.
  intros Hp n Hn H. pose proof (prime_ge_2 p Hp) as P2. set (l := -1 :: repeat 0 (Z.to_nat (n - 1)) ++ [1]).
  assert (E : forall x, peval l x = x ^ n - 1).
  { intro x. unfold l. cbn [peval]. rewrite peval_monomial, Z2Nat.id by lia. replace (x ^ n) with (x ^ Z.succ (n - 1)) by (f_equal; lia). rewrite Z.pow_succ_r by lia. ring. }
  assert (LL : last l 0 = 1). { unfold l. change (-1 :: repeat 0 (Z.to_nat (n - 1)) ++ [1]) with ((-1 :: repeat 0 (Z.to_nat (n - 1))) ++ [1]). apply last_last. }
  pose proof (roots_bound p Hp l) as B. rewrite LL, Z.mod_1_l in B by lia. specialize (B ltac:(lia) (map Z.of_nat (seq 1 (Z.to_nat (p - 1))))).
  rewrite map_length, seq_length in B.
  assert (L : length l = S (Z.to_nat n)). { unfold l. cbn [length]. rewrite app_length, repeat_length. cbn [length]. lia. }
  rewrite L in B. assert (X : (Z.to_nat (p - 1) < S (Z.to_nat n))%nat); [apply B|lia].
  - apply FinFun.Injective_map_NoDup; [intros a b; apply Nat2Z.inj|apply seq_NoDup].
  - apply Forall_forall. intros r Hr. apply in_map_iff in Hr. destruct Hr as (k & <- & Hk). apply in_seq in Hk. split; [lia|]. rewrite E.
    apply Z.mod_divide; [lia|]. pose proof (H (Z.of_nat k) ltac:(lia)) as Hx. exists (Z.of_nat k ^ n / p). rewrite (Z.div_mod (Z.of_nat k ^ n) p) at 1 by lia. rewrite Hx. lia.
Qed.

(** Only exponents coprime to the order minus one give injective powers. *)
Lemma power_injective {F : Field} (Hp : prime order) n : 1 <= n ->
  (forall a b, 0 <= a < order -> 0 <= b < order -> (a ^ n) mod order = (b ^ n) mod order -> a = b) -> Z.gcd n (order - 1) = 1.
Proof.
  intros Hn I. pose proof (prime_ge_2 order Hp) as P2. set (g := Z.gcd n (order - 1)). pose proof (Z.gcd_nonneg n (order - 1)) as G0. fold g in G0.
  assert (Gn : g <> 0) by (unfold g; intro C; apply Z.gcd_eq_0_l in C; lia).
  destruct (Z.gcd_divide_l n (order - 1)) as [u U]. destruct (Z.gcd_divide_r n (order - 1)) as [m M]. fold g in U, M.
  assert (1 <= u) by nia. assert (1 <= m) by nia.
  assert (X : order - 1 <= m).
  { apply (powers_one order Hp m); [lia|]. intros x Hx. apply I; [apply Z.mod_pos_bound; lia|lia|].
    rewrite Z.pow_1_l by lia. rewrite <- Zpower_mod by lia. rewrite <- Z.pow_mul_r by lia.
    replace (m * n) with ((order - 1) * u) by (clearbody g; clear - U M; subst n; rewrite M; ring). rewrite Z.pow_mul_r by lia.
    rewrite Zpower_mod by lia. assert (Fm : (x ^ (order - 1)) mod order = 1 mod order). { apply (fermat Hp). unfold feqm. rewrite Z.mod_small, Z.mod_0_l by lia. lia. } rewrite Fm, (Z.mod_1_l order), Z.pow_1_l by lia. apply Z.mod_1_l. lia. }
  nia.
Qed.
