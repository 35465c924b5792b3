(** Primality of large numbers by Pocklington certificates, and Euler's criterion; used for the two shipped
    field orders and for the JubJub parameters. *)
From Coq Require Import ZArith List Bool Arith Lia Znumtheory Zpow_facts.
From Verif Require Import Base FieldM FieldP Demo.
Import ListNotations.
Open Scope Z_scope.

(** ** fast modular exponentiation: double-and-add products, reducing by one subtraction at a time *)
Definition red (x n : positive) : Z :=
  match Pos.sub_mask x n with
  | Pos.IsNul => 0
  | Pos.IsPos r => Zpos r
  | Pos.IsNeg => Zpos x
  end.
Definition addm (x y : Z) (n : positive) : Z :=
  match x, y with
  | Zpos x', Zpos y' => red (x' + y') n
  | Zpos _, _ => x
  | _, _ => y
  end.
Definition dblm (x : Z) (n : positive) : Z := match x with Zpos x' => red (xO x') n | _ => 0 end.
Fixpoint mulm (k : positive) (x : Z) (n : positive) : Z :=
  match k with
  | xH => x
  | xO k' => dblm (mulm k' x n) n
  | xI k' => addm (dblm (mulm k' x n) n) x n
  end.
Definition mulz (k x : Z) (n : positive) : Z := match k with Zpos k' => mulm k' x n | _ => 0 end.
Fixpoint pow_pos (a : Z) (e n : positive) : Z :=
  match e with
  | xH => a
  | xO e' => let r := pow_pos a e' n in mulz r r n
  | xI e' => let r := pow_pos a e' n in mulz a (mulz r r n) n
  end.
Definition powmod (a e n : Z) : Z :=
  match e, n with
  | Zpos e', Zpos n' => pow_pos (a mod n) e' n'
  | _, _ => 1 mod n
  end.

Lemma red_ok x n : 0 <= Zpos x < 2 * Zpos n -> red x n = Zpos x mod Zpos n.
Proof.
  intro H. unfold red. destruct (Pos.sub_mask_spec x n) as [->|r <-|r <-].
  - symmetry. apply Z.mod_same. lia.
  - rewrite Pos2Z.inj_add in *. replace (Zpos n + Zpos r) with (Zpos r + 1 * Zpos n) by ring. rewrite Z.mod_add by lia. symmetry. apply Z.mod_small. lia.
  - symmetry. apply Z.mod_small. lia.
Qed.
Lemma addm_ok x y n : 0 <= x < Zpos n -> 0 <= y < Zpos n -> addm x y n = (x + y) mod Zpos n.
Proof.
  intros Hx Hy. unfold addm. destruct x as [|x|x], y as [|y|y]; try lia; cbn [Z.add]; try (symmetry; apply Z.mod_small; lia).
  rewrite red_ok; lia.
Qed.
Lemma dblm_ok x n : 0 <= x < Zpos n -> dblm x n = (2 * x) mod Zpos n.
Proof. intros Hx. unfold dblm. destruct x as [|x|x]; [rewrite Z.mul_0_r, Z.mod_0_l; lia| |lia]. rewrite red_ok by lia. reflexivity. Qed.
Lemma mulm_ok k x n : 0 <= x < Zpos n -> mulm k x n = (Zpos k * x) mod Zpos n.
Proof.
  intro Hx. assert (B : forall z, 0 <= z mod Zpos n < Zpos n) by (intro z; apply Z.mod_pos_bound; lia).
  induction k as [k IH|k IH|]; cbn [mulm].
  - rewrite IH, dblm_ok, addm_ok by (rewrite ?dblm_ok; auto). rewrite Z.mul_mod_idemp_r, Z.add_mod_idemp_l by lia. f_equal. lia.
  - rewrite IH, dblm_ok by auto. rewrite Z.mul_mod_idemp_r by lia. f_equal. lia.
  - symmetry. rewrite Z.mul_1_l. apply Z.mod_small. exact Hx.
Qed.
Lemma mulz_ok k x n : 0 <= k -> 0 <= x < Zpos n -> mulz k x n = (k * x) mod Zpos n.
Proof. intros Hk Hx. destruct k; [rewrite Z.mul_0_l, Z.mod_0_l; [reflexivity|lia]|apply mulm_ok, Hx|lia]. Qed.
Lemma pow_pos_ok a e n : 0 <= a < Zpos n -> pow_pos a e n = (a ^ Zpos e) mod Zpos n.
Proof.
  intro Ha. assert (B : forall z, 0 <= z mod Zpos n < Zpos n) by (intro z; apply Z.mod_pos_bound; lia).
  induction e as [e IH|e IH|]; cbn [pow_pos].
  - rewrite IH. rewrite (mulz_ok (_ mod _)) by (auto; apply B). rewrite mulz_ok by (auto; lia). rewrite <- Z.mul_mod by lia. rewrite Z.mul_mod_idemp_r by lia.
    f_equal. replace (Zpos e~1) with (Zpos e + Zpos e + 1) by lia. rewrite !Z.pow_add_r, Z.pow_1_r by lia. ring.
  - rewrite IH. rewrite mulz_ok by (auto; apply B). rewrite <- Z.mul_mod by lia. f_equal. replace (Zpos e~0) with (Zpos e + Zpos e) by lia.
    rewrite Z.pow_add_r by lia. reflexivity.
  - rewrite Z.pow_1_r. symmetry. apply Z.mod_small, Ha.
Qed.
Lemma powmod_ok a e n : 0 < n -> 0 <= e -> powmod a e n = (a ^ e) mod n.
Proof.
  intros Hn He. destruct n as [|n|n]; [lia| |lia]. destruct e; [reflexivity| |lia]. cbn [powmod].
  rewrite pow_pos_ok by (apply Z.mod_pos_bound; lia). symmetry. apply Zpower_mod. lia.
Qed.

(** ** prime divisors *)
Lemma prime_divisor n : 1 < n -> exists p, prime p /\ (p | n).
Proof.
  intro Hn. assert (H : forall k m, 1 < m -> (Z.to_nat m <= k)%nat -> exists p, prime p /\ (p | m)).
  { induction k as [|k IH]; intros m Hm Hk; [lia|]. destruct (prime_dec m) as [P|P]; [exists m; split; [exact P|exists 1; lia]|].
    destruct (not_prime_divide m Hm P) as (d & Hd & Dd). destruct (IH d ltac:(lia) ltac:(lia)) as (p & Pp & Dp).
    exists p. split; [exact Pp|]. exact (Z.divide_trans _ _ _ Dp Dd). }
  apply (H (Z.to_nat n)); lia.
Qed.

Lemma small_prime_divisor n : 1 < n -> ~ prime n -> exists p, prime p /\ (p | n) /\ p * p <= n.
Proof.
  intros Hn P. destruct (not_prime_divide n Hn P) as (d & Hd & [e E]).
  assert (0 < e) by nia. assert (1 < e) by nia.
  destruct (Z.le_ge_cases d e) as [L|L].
  - destruct (prime_divisor d ltac:(lia)) as (p & Pp & Dp). exists p. split; [exact Pp|].
    split; [apply Z.divide_trans with d; [exact Dp|exists e; exact E]|].
    pose proof (Z.divide_pos_le p d ltac:(lia) Dp). destruct Pp. nia.
  - destruct (prime_divisor e ltac:(lia)) as (p & Pp & Dp). exists p. split; [exact Pp|].
    split; [apply Z.divide_trans with e; [exact Dp|exists d; lia]|].
    pose proof (Z.divide_pos_le p e ltac:(lia) Dp). destruct Pp. nia.
Qed.

(** ** exponents that give 1 are closed under gcd *)
Lemma bezout_pos n m : 0 < n -> 0 < m -> exists u v, 0 <= u /\ 0 <= v /\ u * n = Z.gcd n m + v * m.
Proof.
  intros Hn Hm. destruct (Z.gcd_bezout n m (Z.gcd n m) eq_refl) as (a & b & E).
  exists (a + (Z.abs a + Z.abs b) * m), ((Z.abs a + Z.abs b) * n - b). split; [nia|]. split; [nia|]. lia.
Qed.

Lemma pow_one_mod a k p : 1 < p -> 0 <= k -> a mod p = 1 -> (a ^ k) mod p = 1.
Proof.
  intros Hp Hk Ha. revert k Hk. apply natlike_ind; [apply Z.mod_small; lia|]. intros k Hk IH. rewrite Z.pow_succ_r by exact Hk.
  rewrite Z.mul_mod, Ha, IH by lia. apply Z.mod_small. lia.
Qed.

Lemma pow_gcd_one a n m p : 1 < p -> 0 < n -> 0 < m -> (a ^ n) mod p = 1 -> (a ^ m) mod p = 1 -> (a ^ Z.gcd n m) mod p = 1.
Proof.
  intros Hp Hn Hm An Am. destruct (bezout_pos n m Hn Hm) as (u & v & Hu & Hv & E).
  assert (A : (a ^ (u * n)) mod p = 1) by (rewrite Z.mul_comm, Z.pow_mul_r by lia; apply pow_one_mod; assumption).
  rewrite E, Z.pow_add_r in A by (try nia; apply Z.gcd_nonneg).
  assert (B : (a ^ (v * m)) mod p = 1) by (rewrite Z.mul_comm, Z.pow_mul_r by lia; apply pow_one_mod; assumption).
  rewrite Z.mul_mod, B, Z.mul_1_r, Z.mod_mod in A by lia. exact A.
Qed.

(** Fermat's little theorem, from the field development. *)
Lemma fermat_little p a : prime p -> a mod p <> 0 -> (a ^ (p - 1)) mod p = 1.
Proof.
  intros Hp Ha. pose proof (prime_ge_2 p Hp).
  pose proof (@fermat (mkField p) Hp a) as E. unfold feqm in E. cbn [order] in E. rewrite E; [apply Z.mod_small; lia|].
  exact Ha.
Qed.

(** ** Pocklington *)
Definition fprod (fs : list (Z * Z)) : Z := fold_right (fun qe s => fst qe ^ snd qe * s) 1 fs.

Lemma rel_prime_fprod k fs : Forall (fun qe => prime (fst qe) /\ 0 <= snd qe /\ ~ (fst qe | k)) fs -> rel_prime k (fprod fs).
Proof.
  induction 1 as [|[q e] fs (Pq & He & Nq) _ IH]; cbn [fprod fold_right fst snd] in *; [apply rel_prime_sym, rel_prime_1|].
  apply rel_prime_mult; [|exact IH]. apply rel_prime_Zpower_r; [exact He|]. apply rel_prime_sym, prime_rel_prime; assumption.
Qed.

Theorem pocklington N a fs : 1 < N -> Forall (fun qe => prime (fst qe) /\ 0 <= snd qe) fs -> (fprod fs | N - 1) ->
  N < (fprod fs + 1) * (fprod fs + 1) -> 0 < fprod fs -> (a ^ (N - 1)) mod N = 1 ->
  Forall (fun qe => (fst qe | N - 1) /\ Z.gcd (a ^ ((N - 1) / fst qe) - 1) N = 1) fs -> prime N.
Proof.
  intros HN Hpr HF HL HF0 Ha Hg. destruct (prime_dec N) as [|NP]; [assumption|exfalso].
  destruct (small_prime_divisor N HN NP) as (p & Pp & Dp & Lp). pose proof (prime_ge_2 p Pp) as P2.
  assert (Modp : forall x y, x mod N = y mod N -> x mod p = y mod p).
  { intros x y E. destruct Dp as [c ->]. assert (c <> 0) by lia. rewrite (Z.div_mod x (c * p)), (Z.div_mod y (c * p)) by lia. rewrite E.
    replace (c * p * (x / (c * p)) + y mod (c * p)) with (y mod (c * p) + (c * (x / (c * p))) * p) by ring.
    replace (c * p * (y / (c * p)) + y mod (c * p)) with (y mod (c * p) + (c * (y / (c * p))) * p) by ring.
    rewrite !Z.mod_add by lia. reflexivity. }
  assert (Ap : (a ^ (N - 1)) mod p = 1).
  { rewrite (Modp _ 1); [apply Z.mod_small; lia|]. rewrite Ha. symmetry. apply Z.mod_small. lia. }
  assert (Az : a mod p <> 0).
  { intro Z0. assert (D : (p | a ^ (N - 1))).
    { apply Z.divide_trans with a; [apply Z.mod_divide; [lia|exact Z0]|]. exists (a ^ (N - 2)).
      replace (N - 1) with (Z.succ (N - 2)) by lia. rewrite Z.pow_succ_r by lia. ring. }
    apply Z.mod_divide in D; [|lia]. lia. }
  assert (Af : (a ^ (p - 1)) mod p = 1) by (apply fermat_little; assumption).
  set (d := Z.gcd (N - 1) (p - 1)).
  assert (Ad : (a ^ d) mod p = 1) by (apply pow_gcd_one; try assumption; lia).
  assert (D1 : (d | N - 1)) by apply Z.gcd_divide_l. assert (D2 : (d | p - 1)) by apply Z.gcd_divide_r.
  assert (Hd : 0 < d). { pose proof (Z.gcd_nonneg (N - 1) (p - 1)). destruct (Z.eq_dec d 0) as [Z0|]; [|unfold d in *; lia].
    destruct D1 as [c Ec]. rewrite Z0 in Ec. lia. }
  destruct D1 as [k Ek].
  assert (R : rel_prime k (fprod fs)).
  { apply rel_prime_fprod. rewrite Forall_forall in *. intros [q e] Hin. destruct (Hpr _ Hin) as [Pq He]. destruct (Hg _ Hin) as [Dq Gq]. cbn [fst snd] in *.
    split; [exact Pq|]. split; [exact He|]. intros [c Ec]. pose proof (prime_ge_2 q Pq).
    assert (Eq : (N - 1) / q = d * c) by (rewrite Ek, Ec; replace (c * q * d) with (d * c * q) by ring; apply Z.div_mul; lia).
    assert (Hc : 0 <= c) by nia.
    assert (Aq : (a ^ ((N - 1) / q)) mod p = 1) by (rewrite Eq, Z.pow_mul_r by lia; apply pow_one_mod; [lia|exact Hc|exact Ad]).
    assert (Dg : (p | Z.gcd (a ^ ((N - 1) / q) - 1) N)).
    { apply Z.gcd_greatest; [|exact Dp]. apply Z.mod_divide; [lia|]. rewrite Zminus_mod, Aq, (Z.mod_small 1 p) by lia. apply Z.mod_small. lia. }
    rewrite Gq in Dg. apply Z.divide_1_r_nonneg in Dg; lia. }
  assert (DF : (fprod fs | d)).
  { apply Gauss with k; [rewrite <- Ek; exact HF|apply rel_prime_sym; exact R]. }
  pose proof (Z.divide_trans _ _ _ DF D2) as DP. apply Z.divide_pos_le in DP; [|lia]. nia.
Qed.

(** ** checking certificates *)
Definition mem (x : Z) (l : list Z) : bool := existsb (Z.eqb x) l.
Definition zprod (l : list Z) : Z := fold_right Z.mul 1 l.
(** [y] stands for a^E: checks a^(E*q1*..*qk) = 1 and, leaving out one factor at a time, that the result minus 1 is invertible *)
Fixpoint orders (N y : Z) (qs : list Z) : bool :=
  match qs with
  | [] => y =? 1
  | q :: qs' => (Z.gcd (powmod y (zprod qs') N - 1) N =? 1) && orders N (powmod y q N) qs'
  end.
Definition pock_check (known : list Z) (c : Z * Z * list (Z * Z)) : bool :=
  let '(N, a, fs) := c in
  (1 <? N) && forallb (fun qe => mem (fst qe) known && (0 <=? snd qe)) fs &&
  ((N - 1) mod fprod fs =? 0) && (N <? (fprod fs + 1) * (fprod fs + 1)) && (0 <? fprod fs) &&
  ((N - 1) mod zprod (map fst fs) =? 0) &&
  orders N (powmod a ((N - 1) / zprod (map fst fs)) N) (map fst fs).

Lemma gcd_mod_l x n : 1 < n -> Z.gcd (x mod n - 1) n = Z.gcd (x - 1) n.
Proof.
  intro Hn. rewrite (Z.div_mod x n) at 2 by lia. rewrite Z.gcd_comm, (Z.gcd_comm _ n).
  replace (n * (x / n) + x mod n - 1) with ((x mod n - 1) + (x / n) * n) by ring. symmetry. apply Z.gcd_add_mult_diag_r.
Qed.

Lemma zprod_pos l : Forall prime l -> 0 < zprod l.
Proof. induction 1 as [|q l Pq H IH]; cbn [zprod fold_right]; [lia|]. pose proof (prime_ge_2 q Pq). unfold zprod in IH. nia. Qed.

Lemma orders_ok N a qs : 1 < N -> Forall prime qs -> forall E y, 0 <= E -> y = (a ^ E) mod N -> orders N y qs = true ->
  (a ^ (E * zprod qs)) mod N = 1 /\ Forall (fun q => (q | E * zprod qs) /\ Z.gcd (a ^ (E * zprod qs / q) - 1) N = 1) qs.
Proof.
  intros HN. induction 1 as [|q qs Pq Hqs IH]; intros E y HE -> Ho; cbn [orders] in Ho.
  - apply Z.eqb_eq in Ho. cbn [zprod fold_right]. rewrite Z.mul_1_r. split; [exact Ho|constructor].
  - apply andb_true_iff in Ho. destruct Ho as [G Ho]. apply Z.eqb_eq in G. pose proof (prime_ge_2 q Pq) as Q2. pose proof (zprod_pos qs Hqs) as Z0.
    change (zprod (q :: qs)) with (q * zprod qs). rewrite Z.mul_assoc.
    apply (IH (E * q)) in Ho; [|nia|]. 2:{ rewrite powmod_ok by lia. rewrite <- Zpower_mod by lia. rewrite <- Z.pow_mul_r by lia. reflexivity. }
    destruct Ho as [O1 O2]. split; [exact O1|]. constructor; [|exact O2]. split; [exists (E * zprod qs); ring|].
    replace (E * q * zprod qs) with (E * zprod qs * q) by ring. rewrite Z.div_mul by lia.
    rewrite powmod_ok in G by lia. rewrite <- Zpower_mod in G by lia. rewrite <- Z.pow_mul_r in G by lia. rewrite gcd_mod_l in G by exact HN. exact G.
Qed.

Lemma pock_check_ok known N a fs : Forall prime known -> pock_check known (N, a, fs) = true -> prime N.
Proof.
  intros Hk. unfold pock_check. rewrite !andb_true_iff, !forallb_forall, !Z.ltb_lt, !Z.eqb_eq.
  intros ((((((HN & Hm) & HF) & HL) & HF0) & HZ) & Hg).
  assert (Hpr : Forall (fun qe : Z * Z => prime (fst qe) /\ 0 <= snd qe) fs).
  { apply Forall_forall. intros qe Hin. specialize (Hm _ Hin). apply andb_true_iff in Hm. destruct Hm as [M L]. apply Z.leb_le in L. split; [|exact L].
    unfold mem in M. apply existsb_exists in M. destruct M as (x & Hx & Ex). apply Z.eqb_eq in Ex. rewrite Ex. rewrite Forall_forall in Hk. apply Hk, Hx. }
  assert (Hq : Forall prime (map fst fs)). { apply Forall_map. revert Hpr. apply Forall_impl. intros qe [P _]. exact P. }
  pose proof (zprod_pos _ Hq) as Z0.
  apply (orders_ok N a (map fst fs) HN Hq ((N - 1) / zprod (map fst fs))) in Hg; [|apply Z.div_pos; lia|].
  2:{ apply powmod_ok; [lia|]. apply Z.div_pos; lia. }
  replace ((N - 1) / zprod (map fst fs) * zprod (map fst fs)) with (N - 1) in Hg.
  2:{ rewrite Z.mul_comm. apply Z.div_exact; [lia|exact HZ]. }
  destruct Hg as [Ha Hg]. apply (pocklington N a fs); auto.
  - apply Z.mod_divide; [lia|exact HF].
  - rewrite Forall_map in Hg. exact Hg.
Qed.

Fixpoint chain_check (known : list Z) (cs : list (Z * Z * list (Z * Z))) : bool :=
  match cs with
  | [] => true
  | c :: cs' => pock_check known c && chain_check (fst (fst c) :: known) cs'
  end.
Lemma chain_check_ok cs : forall known, Forall prime known -> chain_check known cs = true -> Forall (fun c => prime (fst (fst c))) cs.
Proof.
  induction cs as [|[[N a] fs] cs IH]; intros known Hk H; [constructor|]. cbn [chain_check fst] in *. apply andb_true_iff in H. destruct H as [H1 H2].
  assert (P : prime N) by (eapply pock_check_ok; eassumption). constructor; [exact P|]. apply (IH (N :: known)); [constructor; assumption|exact H2].
Qed.

Definition small_primes : list Z := [2; 5; 229; 359; 853; 1607].
Definition certificates : list (Z * Z * list (Z * Z)) := [
  (93001, 7, [(2, 3); (5, 3)]);
  (12048837557, 2, [(2, 2); (93001, 1)]);
  (5156902474397, 2, [(12048837557, 1)]);
  (1670836401704629, 2, [(5156902474397, 1)]);
  (639533339, 2, [(229, 1); (853, 1)]);
  (65865678001877903, 2, [(639533339, 1)]);
  (13818364434197438864469338081, 2, [(65865678001877903, 1)]);
  (21888242871839275222246405745257275088548364400416034343698204186575808495617, 2, [(13818364434197438864469338081, 1); (1670836401704629, 1)]);
  (906349, 2, [(1607, 1)]);
  (110573, 2, [(359, 1)]);
  (2653753, 2, [(110573, 1)]);
  (63690073, 2, [(2653753, 1)]);
  (254760293, 2, [(63690073, 1)]);
  (52435875175126190479447740508185965837690552500527637822603658699938581184513, 5, [(254760293, 2); (906349, 2); (2, 32)])].

Lemma certified : Forall (fun c : Z * Z * list (Z * Z) => prime (fst (fst c))) certificates.
Proof.
  apply (chain_check_ok certificates small_primes).
  - apply Forall_forall. intros x Hx. apply prime_check_ok.
    assert (A : forallb prime_check small_primes = true) by (vm_compute; reflexivity). rewrite forallb_forall in A. apply A, Hx.
  - vm_compute. reflexivity.
Qed.

Lemma prime_Bn128 : prime (@order Bn128).
Proof.
  pose proof certified as C. rewrite Forall_forall in C.
  assert (H : existsb (fun c : Z * Z * list (Z * Z) => fst (fst c) =? @order Bn128) certificates = true) by (vm_compute; reflexivity).
  apply existsb_exists in H. destruct H as (c & Hc & E). apply Z.eqb_eq in E. rewrite <- E. apply C, Hc.
Qed.
Lemma prime_Bls12_381 : prime (@order Bls12_381).
Proof.
  pose proof certified as C. rewrite Forall_forall in C.
  assert (H : existsb (fun c : Z * Z * list (Z * Z) => fst (fst c) =? @order Bls12_381) certificates = true) by (vm_compute; reflexivity).
  apply existsb_exists in H. destruct H as (c & Hc & E). apply Z.eqb_eq in E. rewrite <- E. apply C, Hc.
Qed.

(** ** squares: a square x^2 <> 0 has (x^2)^((p-1)/2) = 1 *)
Lemma euler_nonsquare p d : prime p -> p mod 2 = 1 -> powmod d ((p - 1) / 2) p = p - 1 -> forall x, (x * x) mod p <> d mod p.
Proof.
  intros Hp Ho He x E. pose proof (prime_ge_2 p Hp). assert (p <> 2) by (intros ->; discriminate).
  assert (Hh : 0 <= (p - 1) / 2) by (apply Z.div_pos; lia).
  rewrite powmod_ok in He by lia.
  assert (Ed : 2 * ((p - 1) / 2) = p - 1).
  { pose proof (Z.div_mod (p - 1) 2 ltac:(lia)). rewrite Zminus_mod, Ho in H1. change ((1 - 1 mod 2) mod 2) with 0 in H1. lia. }
  assert (D : (d ^ ((p - 1) / 2)) mod p = ((x * x) ^ ((p - 1) / 2)) mod p).
  { rewrite (Zpower_mod d), (Zpower_mod (x * x)), E by lia. reflexivity. }
  rewrite D in He. replace (x * x) with (x ^ 2) in He by ring. rewrite <- Z.pow_mul_r in He by lia. rewrite Ed in He.
  destruct (Z.eq_dec (x mod p) 0) as [X|X].
  - assert (Dx : (p | x ^ (p - 1))).
    { apply Z.divide_trans with x; [apply Z.mod_divide; [lia|exact X]|]. exists (x ^ (p - 2)).
      replace (p - 1) with (Z.succ (p - 2)) by lia. rewrite Z.pow_succ_r by lia. ring. }
    apply Z.mod_divide in Dx; lia.
  - rewrite fermat_little in He by assumption. lia.
Qed.
