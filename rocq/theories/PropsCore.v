(** C01-C09, C11, C12: field elements, expressions, wire values and execution. *)
From Coq Require Import ZArith List Bool Arith Lia Znumtheory Permutation Sorting.Sorted.
From Verif Require Import Base FieldM FieldP ExprM BuilderM GadgetsM Spec ExprP BitsP MonoP HonestP ExecP CoreP Demo.
Import ListNotations.
Open Scope Z_scope.

(** The canonical representative: the only field element congruent to [n]. *)
Definition repr (F : Field) (r n : Z) : Prop := 0 <= r < order /\ exists q, n = r + q * order.

Lemma repr_of (F : Field) r n : 2 <= order -> infield r -> feqm r n -> repr F r n.
Proof.
  intros H I E. split; [exact I|]. unfold feqm in E. rewrite Z.mod_small in E by exact I.
  exists (n / order). rewrite E. rewrite Z.add_comm, Z.mul_comm. apply Z.div_mod. lia.
Qed.

(** ** C01 *)
Theorem C01_arithmetic : forall (F : Field), 2 <= order -> forall x y, 0 <= x < order -> 0 <= y < order ->
  repr F (fadd x y) (x + y) /\ repr F (fsub x y) (x - y) /\ repr F (fmul x y) (x * y) /\ repr F (fopp x) (- x) /\
  repr F fzero 0 /\ repr F fone 1 /\ repr F largest_element (-1).
Proof.
  intros F H x y Hx Hy.
  split; [apply repr_of; [exact H|apply infield_add, H|apply fadd_eqm, H]|].
  split; [apply repr_of; [exact H|apply infield_sub, H|apply fsub_eqm, H]|].
  split; [apply repr_of; [exact H|apply infield_mul, H|apply fmul_eqm, H]|].
  split; [apply repr_of; [exact H|apply infield_opp; auto|apply fopp_eqm, H]|].
  split; [|split].
  - split; [unfold fzero; lia|exists 0; unfold fzero; lia].
  - split; [unfold fone; lia|exists 0; unfold fone; lia].
  - split; [unfold largest_element; lia|exists (-1); unfold largest_element; lia].
Qed.
Print Assumptions C01_arithmetic.

(** The representative is unique, so these equations determine the results. *)
Theorem C01_representative_unique : forall (F : Field) r r' n, repr F r n -> repr F r' n -> r = r'.
Proof. intros F r r' n [H [q E]] [H' [q' E']]. assert (q = q') by nia. subst. lia. Qed.
Print Assumptions C01_representative_unique.

(** Conversion from an unsigned integer. *)
Theorem C01_from : forall (F : Field) n, 0 <= n ->
  (n < order -> el_from n = Ok n) /\ (order <= n -> el_from n = Panic).
Proof.
  intros F n Hn. unfold el_from. destruct (Z.ltb_spec n order); split; intro; try reflexivity; lia.
Qed.
Print Assumptions C01_from.

(** None of the conversions inside the operators can panic. *)
Theorem C01_no_panic : forall (F : Field), 2 <= order -> forall x y, 0 <= x < order -> 0 <= y < order ->
  el_from ((x + y) mod order) = Ok (fadd x y) /\ el_from ((x * y) mod order) = Ok (fmul x y) /\
  (x <> 0 -> el_from (order - x) = Ok (fopp x)) /\ (forall n, 0 <= n < order -> fmul_u128 x n = Ok (fmul x n)).
Proof.
  intros F H x y Hx Hy. split; [apply el_from_ok, infield_mod, H|]. split; [apply el_from_ok, infield_mod, H|]. split.
  - intro N. unfold fopp. destruct (Z.eqb_spec x 0); [contradiction|]. apply el_from_ok. unfold infield. lia.
  - intros n Hn. unfold fmul_u128. rewrite el_from_ok by exact Hn. reflexivity.
Qed.
Print Assumptions C01_no_panic.

(** Multiplication by an out-of-range integer literal panics instead of reducing. *)
Theorem C01_mul_u128_panics : forall (F : Field) x n, order <= n -> fmul_u128 x n = Panic.
Proof. intros F x n H. unfold fmul_u128, el_from. destruct (Z.ltb_spec n order); [lia|reflexivity]. Qed.
Print Assumptions C01_mul_u128_panics.

Example C01_example : let F : Field := F7 in fadd 5 4 = 2 /\ fsub 2 5 = 4 /\ fmul 5 4 = 6 /\ fopp 3 = 4 /\ fopp 0 = 0 /\ el_from 7 = Panic.
Proof. vm_compute. auto 10. Qed.

(** ** C02 *)
Theorem C02_inverse : forall (F : Field), prime order -> 2 < order -> forall x, 0 <= x < order ->
  (x = 0 -> finv x = Panic /\ finv_or_zero x = Ok 0) /\
  (x <> 0 -> exists y, finv x = Ok y /\ finv_or_zero x = Ok y /\ 0 <= y < order /\ (x * y) mod order = 1).
Proof.
  intros F Hp H2 x Hx. split.
  - intros ->. split; reflexivity.
  - intro N. exists (finvv x). split; [apply (finv_spec Hp); auto|]. split; [apply (finv_or_zero_spec Hp); auto|].
    split; [apply (finvv_infield Hp); lia|]. apply (finvv_correct Hp x Hx N).
Qed.
Print Assumptions C02_inverse.

Theorem C02_division : forall (F : Field), prime order -> 2 < order -> forall a b, 0 <= a < order -> 0 <= b < order ->
  (b = 0 -> fdiv a b = Panic) /\
  (b <> 0 -> exists q, fdiv a b = Ok q /\ 0 <= q < order /\ (q * b) mod order = a).
Proof.
  intros F Hp H2 a b Ha Hb. unfold fdiv. split.
  - intros ->. reflexivity.
  - intro N. rewrite (finv_spec Hp b H2 Hb N). cbn [obind]. exists (fmul a (finvv b)). split; [reflexivity|].
    split; [apply infield_mul; lia|]. unfold fmul. rewrite Z.mul_mod_idemp_l by lia.
    replace (a * finvv b * b) with (a * (b * finvv b)) by ring. rewrite <- Z.mul_mod_idemp_r by lia.
    pose proof (finvv_correct Hp b Hb N) as C. unfold fmul in C. rewrite C, Z.mul_1_r. apply Z.mod_small. exact Ha.
Qed.
Print Assumptions C02_division.

Theorem C02_exponentiation : forall (F : Field), prime order -> forall x e, 0 <= e -> fexp x e = (x ^ e) mod order.
Proof. intros F Hp x e He. apply (fexp_spec Hp x e He). Qed.
Print Assumptions C02_exponentiation.

(** In the field of order 2 even the inverse of 1 panics. *)
Theorem C02_order2_panics : forall (F : Field), order = 2 -> forall x, finv x = Panic.
Proof. intros F H x. unfold finv, el_from. rewrite H. destruct (x =? 0); reflexivity. Qed.
Print Assumptions C02_order2_panics.

Example C02_example : let F : Field := F7 in finv 3 = Ok 5 /\ fdiv 6 4 = Ok 5 /\ finv_or_zero 0 = Ok 0 /\ finv 0 = Panic.
Proof. vm_compute. auto. Qed.

(** ** C03 *)
Theorem C03_gcd : forall (F : Field) x y, 0 <= x < order -> 0 <= y < order -> fgcd x y = Ok (Z.gcd x y).
Proof. intros F x y. apply fgcd_ok. Qed.
Print Assumptions C03_gcd.

Theorem C03_division_with_remainder : forall (F : Field) x y, 0 <= x < order -> 0 <= y < order ->
  (y = 0 -> integer_division x y = Panic /\ integer_modulus x y = Panic) /\
  (y <> 0 -> exists q r, integer_division x y = Ok q /\ integer_modulus x y = Ok r /\
     0 <= q < order /\ 0 <= r < y /\ x = q * y + r).
Proof.
  intros F x y Hx Hy. split.
  - intros ->. split; reflexivity.
  - intro N. exists (x / y), (x mod y). split; [apply idiv_ok; lia|]. split; [apply imod_ok; lia|].
    pose proof (Z.div_mod x y N). pose proof (Z.mod_pos_bound x y ltac:(lia)). pose proof (Z.div_pos x y ltac:(lia) ltac:(lia)).
    split; [|lia]. nia.
Qed.
Print Assumptions C03_division_with_remainder.

Example C03_example : let F : Field := F97 in fgcd 84 36 = Ok 12 /\ fgcd 0 0 = Ok 0 /\ integer_division 50 8 = Ok 6 /\ integer_modulus 50 8 = Ok 2.
Proof. vm_compute. auto. Qed.

(** ** C04 *)
(** What is true: from 2 on the answer [true] is given exactly for the primes x such that the square of some
    d <= x, reduced modulo the order, exceeds x; so composites are always rejected, and primes accepted as long
    as the squares do not wrap around.  Full statement (false): [true] exactly for the primes. *)
Theorem C04_is_prime_partial : forall (F : Field), 2 < order -> forall x fuel, 2 <= x < order -> (Z.to_nat x <= fuel)%nat ->
  exists b, is_prime fuel x = Ok b /\
    (b = true <-> prime x /\ exists d, 2 <= d <= x /\ x < (d * d) mod order) /\
    (~ prime x -> b = false) /\
    (prime x -> (Z.sqrt x + 1) * (Z.sqrt x + 1) < order -> b = true).
Proof.
  intros F H2 x fuel Hx Hf. unfold is_prime. rewrite el_from_ok by (unfold infield; lia). cbn [obind].
  destruct (is_prime_loop_ok H2 fuel x 2) as (b & E & Hb); try lia.
  exists b. split; [exact E|]. split; [exact Hb|]. split.
  - intro N. destruct b; [|reflexivity]. exfalso. apply N, Hb. reflexivity.
  - intros Hp Hs. apply Hb. split; [exact Hp|]. pose proof (Z.sqrt_spec x ltac:(lia)) as S.
    pose proof (Z.sqrt_nonneg x). exists (Z.sqrt x + 1). rewrite Z.mod_small by nia. unfold Z.succ in S. nia.
Qed.
Print Assumptions C04_is_prime_partial.

(** 0 and 1 are declared prime ... *)
Theorem C04_zero_one_refuted : forall (F : Field), 4 < order -> forall x fuel, x = 0 \/ x = 1 -> (0 < fuel)%nat ->
  is_prime fuel x = Ok true /\ ~ prime x.
Proof.
  intros F H x fuel Hx Hf. split.
  - unfold is_prime. rewrite el_from_ok by (unfold infield; lia). cbn [obind]. destruct fuel as [|f]; [lia|]. cbn [is_prime_loop].
    unfold fmul. rewrite (Z.mod_small (2 * 2)) by lia. destruct (Z.leb_spec (2 * 2) x); [lia|reflexivity].
  - intros [H1 _]. lia.
Qed.
Print Assumptions C04_zero_one_refuted.

(** ... and primes whose trial squares wrap around can be declared composite: 5 in the field of 7 elements. *)
Theorem C04_prime_rejected_refuted : exists (F : Field) x, prime order /\ 0 <= x < order /\ prime x /\
  forall fuel, (5 <= fuel)%nat -> is_prime fuel x = Ok false.
Proof.
  exists F7, 5. split; [exact prime_F7|]. split; [cbn; lia|]. split; [exact prime_F5|]. intros fuel Hf.
  do 5 (destruct fuel as [|fuel]; [lia|]). reflexivity.
Qed.
Print Assumptions C04_prime_rejected_refuted.

Example C04_example : let F : Field := F97 in is_prime 97 53 = Ok true /\ is_prime 97 51 = Ok false /\ is_prime 97 89 = Ok true.
Proof. vm_compute. auto. Qed.

(** ** C05 *)
Theorem C05_bits : forall (F : Field), 2 <= order -> forall x, 0 <= x < order ->
  bits_val (map (fun i => b2z (el_bit x i)) (seq 0 max_bits)) = x /\
  (forall i, (el_bits x <= i)%nat -> el_bit x i = false) /\
  (forall n, x < 2 ^ Z.of_nat n <-> (el_bits x <= n)%nat) /\
  (el_bits x <= max_bits)%nat /\
  (forall i, b2z (el_bit x i) = (x / 2 ^ Z.of_nat i) mod 2).
Proof.
  intros F H x Hx. split; [|split; [|split; [|split]]].
  - unfold el_bit. rewrite bits_val_testbit by lia. apply Z.mod_small. pose proof (max_bits_upper H). lia.
  - intros i Hi. unfold el_bit, zbit, el_bits in *. pose proof (zbits_le_iff x i ltac:(lia)) as L.
    assert (x < 2 ^ Z.of_nat i) by tauto. rewrite Z.testbit_odd, Z.shiftr_div_pow2 by lia. rewrite Z.div_small by lia. reflexivity.
  - intro n. symmetry. apply zbits_le_iff. lia.
  - apply zbits_le_iff; [lia|]. pose proof (max_bits_upper H). lia.
  - intro i. unfold el_bit, zbit. rewrite <- Z.testbit_spec' by lia. destruct (Z.testbit x (Z.of_nat i)); reflexivity.
Qed.
Print Assumptions C05_bits.

Theorem C05_max_bits : forall (F : Field), 2 <= order -> forall n,
  (forall x, 0 <= x < order -> x < 2 ^ Z.of_nat n) <-> (max_bits <= n)%nat.
Proof.
  intros F H n. split.
  - intro A. unfold max_bits, el_bits. apply zbits_le_iff; [unfold largest_element; lia|]. apply A. unfold largest_element. lia.
  - intros L x Hx. pose proof (max_bits_upper H). pose proof (pow2_le _ _ L). lia.
Qed.
Print Assumptions C05_max_bits.

Example C05_example : let F : Field := F97 in map (el_bit 89) (seq 0 8) = [true; false; false; true; true; false; true; false] /\ el_bits 89 = 7%nat /\ max_bits = 7%nat.
Proof. vm_compute. auto. Qed.

(** ** C06 *)
(** Evaluation as the code does it: whenever the operands evaluate, so does the result, to the field operation
    applied to their values. *)
Theorem C06_homomorphism : forall (F : Field), 2 <= order -> forall v a b x y,
  e_evaluate v a = Ok x -> e_evaluate v b = Ok y ->
  e_evaluate v (e_add a b) = Ok ((x + y) mod order) /\
  e_evaluate v (e_sub a b) = Ok ((x - y) mod order) /\
  e_evaluate v (e_neg a) = Ok ((- x) mod order) /\
  (forall c, e_evaluate v (e_scale a c) = Ok ((x * c) mod order)).
Proof.
  intros F H v a b x y Ea Eb.
  pose proof (evaluate_binop H v a b x y) as G.
  assert (M : forall w e, ev w e = ev w e mod order) by (intros; symmetry; apply Z.mod_small, ev_infield, H).
  split; [|split; [|split]].
  - apply (G (e_add a b) (fun x y => (x + y) mod order) Ea Eb); [apply deps_add|]. apply (ev_add H).
  - apply (G (e_sub a b) (fun x y => (x - y) mod order) Ea Eb).
    + intros k Hk. apply deps_add in Hk. destruct Hk as [Hk|Hk]; [left; exact Hk|]. right. apply deps_scale in Hk. exact Hk.
    + rewrite M. apply feqm_eq; [apply infield_mod, H|apply infield_mod, H|]. rewrite (ev_sub H).
      unfold feqm. rewrite !Z.mod_mod by lia. apply (fsub_eqm H).
  - apply (G (e_neg a) (fun x _ => (- x) mod order) Ea Eb).
    + intros k Hk. apply deps_scale in Hk. left. exact Hk.
    + rewrite M, (ev_neg H). apply (fopp_eqm H).
  - intro c. apply (G (e_scale a c) (fun x _ => (x * c) mod order) Ea Eb).
    + intros k Hk. apply deps_scale in Hk. left. exact Hk.
    + apply (ev_scale H).
Qed.
Print Assumptions C06_homomorphism.

Theorem C06_division : forall (F : Field), prime order -> 2 < order -> forall v a x c,
  e_evaluate v a = Ok x -> 0 <= c < order -> c <> 0 ->
  exists r q, e_div a c = Ok r /\ e_evaluate v r = Ok q /\ (q * c) mod order = x.
Proof.
  intros F Hp H2 v a x c Ea Hc N. assert (H : 2 <= order) by lia.
  exists (e_scale a (finvv c)), ((x * finvv c) mod order). split; [apply (e_div_ok Hp); auto|].
  split; [destruct (C06_homomorphism F H v a a x x Ea Ea) as (_ & _ & _ & S); apply S|].
  rewrite Z.mul_mod_idemp_l by lia. replace (x * finvv c * c) with (x * (c * finvv c)) by ring.
  rewrite <- Z.mul_mod_idemp_r by lia. pose proof (finvv_correct Hp c Hc N) as C. unfold fmul in C. rewrite C, Z.mul_1_r.
  rewrite (e_evaluate_raw_inv H _ _ _ Ea). apply Z.mod_small, ev_infield, H.
Qed.
Print Assumptions C06_division.

Theorem C06_atoms : forall (F : Field), 2 <= order -> forall v, m_get ONE v = Some 1 ->
  (forall c, 0 <= c < order -> e_evaluate v (e_const c) = Ok c) /\
  (forall k x, m_get k v = Some x -> 0 <= x < order -> e_evaluate v (e_wire k) = Ok x) /\
  e_evaluate v e_zero = Ok 0 /\ e_evaluate v e_one = Ok 1 /\ (forall b, e_evaluate v (e_bool b) = Ok (b2z b)).
Proof.
  intros F H v H1. assert (W1 : raw_witness v ONE = 1) by (unfold raw_witness; rewrite H1; reflexivity).
  assert (D : forall c k, In k (e_deps (e_const c)) -> m_get k v <> None).
  { intros c k Hk. apply deps_new in Hk. destruct Hk as [<-|[]]. cbn. rewrite H1. discriminate. }
  split; [|split; [|split; [|split]]].
  - intros c Hc. rewrite (e_evaluate_raw H) by apply D. rewrite (ev_const H _ _ W1 Hc). reflexivity.
  - intros k x G Hx. rewrite (e_evaluate_raw H).
    + assert (E : raw_witness v k = x) by (unfold raw_witness; rewrite G; reflexivity).
      rewrite (ev_wire H) by (rewrite E; exact Hx). rewrite E. reflexivity.
    + intros j Hj. apply deps_new in Hj. destruct Hj as [<-|[]]. cbn. rewrite G. discriminate.
  - reflexivity.
  - rewrite (e_evaluate_raw H) by apply D. rewrite (ev_one H _ W1). reflexivity.
  - intro b. rewrite (e_evaluate_raw H) by apply D. rewrite (ev_bool H _ _ W1). reflexivity.
Qed.
Print Assumptions C06_atoms.

Theorem C06_sum_of_expressions : forall (F : Field), 2 <= order -> forall v es xs,
  Forall2 (fun e x => e_evaluate v e = Ok x) es xs ->
  e_evaluate v (e_sum es) = Ok (fold_right Z.add 0 xs mod order).
Proof.
  intros F H v es xs HF. rewrite (e_evaluate_raw H).
  - rewrite (ev_sum H). do 2 f_equal. induction HF as [|e x es xs E _ IH]; [reflexivity|]. cbn [fold_right].
    rewrite IH, <- (e_evaluate_raw_inv H _ _ _ E). reflexivity.
  - assert (O : Forall (over (fun k => m_get k v <> None)) es).
    { induction HF as [|e x es xs E _ IH]; constructor; auto. exact (e_evaluate_deps v e x E). }
    exact (over_sum _ es O).
Qed.
Print Assumptions C06_sum_of_expressions.

(** An expression evaluates as soon as its wires have values. *)
Theorem C06_evaluate_total : forall (F : Field), 2 <= order -> forall v e,
  (exists x, e_evaluate v e = Ok x) <-> (forall k, In k (e_deps e) -> exists x, m_get k v = Some x).
Proof.
  intros F H v e. split.
  - intros [x E] k Hk. pose proof (e_evaluate_deps v e x E k Hk). destruct (m_get k v) as [y|]; [eauto|congruence].
  - intro A. exists (ev (raw_witness v) e). apply (e_evaluate_raw H). intros k Hk. destruct (A k Hk) as [x ->]. discriminate.
Qed.
Print Assumptions C06_evaluate_total.

Example C06_example : let F : Field := F7 in let v := [(1%nat, 3); (2%nat, 5); (0%nat, 1)] in
  e_evaluate v (e_add (e_scale (e_wire 1) 4) (e_sub (e_wire 2) e_one)) = Ok ((3 * 4 + 5 - 1) mod 7) /\
  e_evaluate v (e_sub (e_wire 1) (e_wire 1)) = Ok 0 /\ e_evaluate v (e_wire 3) = Panic.
Proof. vm_compute. auto. Qed.

(** ** C07 *)
(** Expressions a user can build.  [Expression::new] takes any BTreeMap of elements: sorted keys. *)
Inductive api_expr {F : Field} : expr -> Prop :=
| api_new m : StronglySorted wire_lt (map fst m) -> Forall (fun kc => 0 <= snd kc < order) m -> api_expr (e_new m)
| api_sum_of_wires ws : api_expr (e_sum_of_wires ws)
| api_sum es : Forall api_expr es -> api_expr (e_sum es)
| api_zero : api_expr e_zero
| api_wire k : api_expr (e_wire k)
| api_const c : 0 <= c < order -> api_expr (e_const c)
| api_from_uint n e : 0 <= n -> e_from_uint n = Ok e -> api_expr e
| api_bool b : api_expr (e_bool b)
| api_add a b : api_expr a -> api_expr b -> api_expr (e_add a b)
| api_sub a b : api_expr a -> api_expr b -> api_expr (e_sub a b)
| api_neg a : api_expr a -> api_expr (e_neg a)
| api_scale a c : api_expr a -> 0 <= c < order -> api_expr (e_scale a c)
| api_scale_u128 a n e : api_expr a -> 0 <= n -> e_scale_u128 a n = Ok e -> api_expr e
| api_div a c e : api_expr a -> 0 <= c < order -> e_div a c = Ok e -> api_expr e.

Lemma omap_pairs {F : Field} (f : Z -> outcome Z) (a l : expr) :
  omap (fun kv => let! c := f (snd kv) in Ok (fst kv, c)) a = Ok l -> (forall x y, f x = Ok y -> 0 <= y < order) ->
  map fst l = map fst a /\ Forall (fun kc => 0 <= snd kc < order) l.
Proof.
  intros E Hf. revert l E. induction a as [|[k x] a IH]; intros l E; cbn [omap] in E.
  - inversion E; subst. split; [reflexivity|constructor].
  - cbn [fst snd] in E. destruct (f x) as [y| |] eqn:Ey; try discriminate. cbn [obind] in E.
    destruct (omap _ a) as [r| |]; try discriminate. cbn [obind] in E. injection E as <-.
    destruct (IH r eq_refl) as [E1 V]. split; [cbn; rewrite E1; reflexivity|]. constructor; [exact (Hf _ _ Ey)|exact V].
Qed.

Theorem C07_canonical : forall (F : Field), 2 <= order -> forall e, api_expr e ->
  StronglySorted wire_lt (map fst e) /\ NoDup (map fst e) /\ Forall (fun kc => 0 <= snd kc < order /\ snd kc <> 0) e.
Proof.
  intros F H.
  assert (G : forall e, api_expr e -> canon e).
  { intros e A. induction A as [m S V|ws|es _| |k|c Hc|n e Hn E|b|a b Aa IHa Ab IHb|a b Aa IHa Ab IHb|a Aa IHa|a c Aa IHa Hc|a n e Aa IHa Hn E|a c e Aa IHa Hc E].
    - apply canon_new. split; assumption.
    - apply (canon_sum_of_wires H).
    - apply (canon_sum H).
    - apply canon_zero.
    - apply (canon_wire H).
    - apply canon_const, Hc.
    - unfold e_from_uint, el_from in E. destruct (Z.ltb_spec n order); cbn in E; [|discriminate]. injection E as <-.
      apply canon_const. unfold infield. lia.
    - apply canon_const, infield_bool, H.
    - apply (canon_add H), IHa.
    - apply (canon_add H), IHa.
    - apply (canon_scale H), IHa.
    - apply (canon_scale H), IHa.
    - unfold e_scale_u128 in E. destruct (omap _ a) as [l| |] eqn:O; try discriminate. injection E as <-.
      destruct (omap_pairs (fun x => fmul_u128 x n) a l O) as [E1 V].
      { intros x y Ey. unfold fmul_u128, el_from in Ey. destruct (n <? order); cbn in Ey; [|discriminate]. injection Ey as <-. apply infield_mul, H. }
      apply canon_new. split; [rewrite E1; apply IHa|exact V].
    - unfold e_div in E. destruct (omap _ a) as [l| |] eqn:O; try discriminate. injection E as <-.
      destruct (omap_pairs (fun x => fdiv x c) a l O) as [E1 V].
      { intros x y Ey. unfold fdiv in Ey. destruct (finv c); cbn in Ey; try discriminate. injection Ey as <-. apply infield_mul, H. }
      apply canon_new. split; [rewrite E1; apply IHa|exact V]. }
  intros e A. destruct (G e A) as [S V]. split; [exact S|]. split; [apply sorted_nodup, S|exact V].
Qed.
Print Assumptions C07_canonical.

Lemma api_canon (F : Field) : 2 <= order -> forall e, api_expr e -> canon e.
Proof. intros H e A. destruct (C07_canonical F H e A) as (S & _ & V). split; assumption. Qed.

Theorem C07_equality : forall (F : Field), 2 <= order -> forall a b, api_expr a -> api_expr b ->
  (a = b <-> forall w, wf_witness w -> ev w a = ev w b).
Proof.
  intros F H a b Aa Ab. split; [intros -> w _; reflexivity|].
  apply (canon_eq H); apply (api_canon F H); assumption.
Qed.
Print Assumptions C07_equality.

Theorem C07_dependencies : forall (F : Field), 2 <= order -> forall e, api_expr e ->
  (forall k, k <> ONE -> (In k (e_deps e) <->
    exists w w', wf_witness w /\ wf_witness w' /\ (forall j, j <> k -> w j = w' j) /\ ev w e <> ev w' e)) /\
  (In ONE (e_deps e) <-> ev (fun k => if (k =? ONE)%nat then 1 else 0) e <> 0).
Proof.
  intros F H e A. pose proof (api_canon F H e A) as C. split.
  - intros k N. apply (canon_dep H); assumption.
  - apply (canon_dep_one H), C.
Qed.
Print Assumptions C07_dependencies.

(** [as_constant] recognises exactly the expressions with a constant non-zero value. *)
Theorem C07_as_constant : forall (F : Field), 2 <= order -> forall e c, api_expr e ->
  (e_as_constant e = Some c <-> 0 < c < order /\ forall w, wf_witness w -> ev w e = c).
Proof.
  intros F H e c A. pose proof (api_canon F H e A) as C. split.
  - intro E. pose proof (as_constant_spec _ _ E) as ->. destruct C as [_ V]. inversion V as [|? ? [I N] _]; subst. cbn in I, N.
    unfold infield in I. split; [lia|]. intros w [W1 _]. unfold ev. cbn. rewrite W1. rewrite Z.mod_small; lia.
  - intros [Hc Hv]. assert (E : e = e_const c).
    { apply (canon_eq H); [exact C|apply canon_const; unfold infield; lia|]. intros w W. rewrite Hv by exact W.
      symmetry. apply (ev_const H); [apply W|unfold infield; lia]. }
    subst e. unfold e_const, m_collect, e_new. cbn. destruct (Z.eqb_spec c 0); [lia|reflexivity].
Qed.
Print Assumptions C07_as_constant.

Example C07_example : let F : Field := F7 in
  e_add (e_add (e_wire 2) e_one) (e_wire 1) = [(1%nat, 1); (2%nat, 1); (0%nat, 1)] /\
  e_sub (e_add (e_wire 1) (e_wire 2)) (e_wire 1) = e_wire 2 /\ e_scale (e_wire 1) 0 = e_zero.
Proof. vm_compute. auto. Qed.

(** ** C08 *)
(** True for lists without repetition.  Full statement (false): for all lists. *)
Theorem C08_sum_of_wires_partial : forall (F : Field), 2 <= order -> forall ws w, NoDup ws ->
  ev w (e_sum_of_wires ws) = fold_right (fun k s => w k + s) 0 ws mod order.
Proof. intros F H ws w ND. apply ev_sum_of_wires, ND. Qed.
Print Assumptions C08_sum_of_wires_partial.

(** In general every wire counts once, however often it is listed. *)
Theorem C08_counts_once : forall (F : Field), 2 <= order -> forall ws w,
  ev w (e_sum_of_wires ws) = fold_right (fun k s => w k + s) 0 (nodup Nat.eq_dec ws) mod order.
Proof.
  intros F H ws w. rewrite <- (ev_sum_of_wires w (nodup Nat.eq_dec ws)) by apply NoDup_nodup. f_equal.
  apply sorted_ext; [apply (canon_sum_of_wires H)|apply (canon_sum_of_wires H)|]. intro k.
  pose proof (sum_of_wires_coef ws k) as E1. pose proof (sum_of_wires_coef (nodup Nat.eq_dec ws) k) as E2. unfold coef in *.
  destruct (canon_coef H (e_sum_of_wires ws) k (canon_sum_of_wires H ws)) as [_ D1].
  destruct (canon_coef H (e_sum_of_wires (nodup Nat.eq_dec ws)) k (canon_sum_of_wires H _)) as [_ D2].
  assert (E : (if in_dec Nat.eq_dec k ws then 1 else 0) = (if in_dec Nat.eq_dec k (nodup Nat.eq_dec ws) then 1 else 0)).
  { pose proof (nodup_In Nat.eq_dec ws k). destruct (in_dec Nat.eq_dec k ws), (in_dec Nat.eq_dec k (nodup Nat.eq_dec ws)); tauto. }
  rewrite <- E, <- E1 in E2. unfold coef in D1, D2.
  destruct (m_get k (e_sum_of_wires ws)) as [x|] eqn:G1, (m_get k (e_sum_of_wires (nodup Nat.eq_dec ws))) as [y|] eqn:G2; auto; try congruence.
  - exfalso. apply D1; [|symmetry; exact E2]. apply m_get_In in G1. apply in_map_iff. exists (k, x). auto.
  - exfalso. apply D2; [|exact E2]. apply m_get_In in G2. apply in_map_iff. exists (k, y). auto.
Qed.
Print Assumptions C08_counts_once.

Theorem C08_repeated_wire_refuted : forall (F : Field), 2 <= order -> forall k w, wf_witness w -> w k <> 0 ->
  ev w (e_sum_of_wires [k; k]) = w k /\ ev w (e_sum_of_wires [k; k]) <> (w k + w k) mod order.
Proof.
  intros F H k w [_ W] N. rewrite (C08_counts_once F H [k; k] w).
  assert (E : nodup Nat.eq_dec [k; k] = [k]) by (cbn; destruct (Nat.eq_dec k k); [reflexivity|contradiction]).
  rewrite E. cbn [fold_right]. rewrite Z.add_0_r. specialize (W k). rewrite (Z.mod_small (w k)) by exact W. split; [reflexivity|].
  intro Q. destruct (Z.lt_ge_cases (w k + w k) order).
  - rewrite Z.mod_small in Q by lia. lia.
  - replace (w k + w k) with (w k + w k - order + 1 * order) in Q by ring. rewrite Z_mod_plus_full, Z.mod_small in Q by lia. lia.
Qed.
Print Assumptions C08_repeated_wire_refuted.

Example C08_example : let F : Field := F7 in e_sum_of_wires [3%nat; 1%nat; 3%nat] = [(1%nat, 1); (3%nat, 1)].
Proof. vm_compute. auto. Qed.

(** ** C09 *)
Inductive reachable {F : Field} : values -> Prop :=
| r_new : reachable v_new
| r_set k x v v' : reachable v -> v_set k x v = Ok v' -> reachable v'
| r_set_boolean k b v v' : reachable v -> v_set_boolean k b v = Ok v' -> reachable v'
| r_set_binary ws n v v' : reachable v -> 0 <= n -> v_set_binary_unsigned ws n v = Ok v' -> reachable v'.

Theorem C09_constant_wire : forall (F : Field) v, reachable v -> m_get ONE v = Some 1.
Proof.
  intros F v H. induction H as [|k x v v' _ IH E|k b v v' _ IH E|ws n v v' _ IH _ E]; [reflexivity|..].
  - exact (v_set_keeps _ _ _ _ E _ _ IH).
  - exact (v_set_boolean_keeps _ _ _ _ E _ _ IH).
  - exact (v_set_binary_keeps _ _ _ _ E _ _ IH).
Qed.
Print Assumptions C09_constant_wire.

(** [set] succeeds exactly on a wire without value; it then holds the value and every other wire is unchanged. *)
Theorem C09_set : forall (F : Field) k x v,
  (m_get k v <> None -> v_set k x v = Panic) /\
  (m_get k v = None -> exists v', v_set k x v = Ok v' /\ forall j, m_get j v' = if (j =? k)%nat then Some x else m_get j v).
Proof.
  intros F k x v. split.
  - intro H. unfold v_set. destruct (m_get k v); [reflexivity|congruence].
  - apply v_set_fresh.
Qed.
Print Assumptions C09_set.

Theorem C09_set_boolean : forall (F : Field) k b v, v_set_boolean k b v = v_set k (b2z b) v.
Proof. intros F k b v. destruct b; reflexivity. Qed.
Print Assumptions C09_set_boolean.

Theorem C09_set_binary : forall (F : Field) ws n v, 0 <= n ->
  ((n < 2 ^ Z.of_nat (length ws) /\ NoDup ws /\ forall k, In k ws -> m_get k v = None) ->
    exists v', v_set_binary_unsigned ws n v = Ok v' /\
      (forall i, (i < length ws)%nat -> m_get (nth i ws 0%nat) v' = Some ((n / 2 ^ Z.of_nat i) mod 2)) /\
      (forall k, ~ In k ws -> m_get k v' = m_get k v)) /\
  (~ (n < 2 ^ Z.of_nat (length ws) /\ NoDup ws /\ forall k, In k ws -> m_get k v = None) ->
    v_set_binary_unsigned ws n v = Panic).
Proof.
  intros F ws n v Hn. unfold v_set_binary_unsigned, enumerate. split.
  - intros (Hl & ND & Fr). destruct (Nat.leb_spec (zbits n) (length ws)) as [L|L]; [|pose proof (zbits_min n (length ws) (conj Hn Hl)); lia]; cbn [oassert obind].
    destruct (set_binary_total n ws 0 v ND Fr) as (v' & E). exists v'. split; [exact E|].
    destruct (set_binary_go n ws 0 v v' E) as (_ & _ & G & O). split; [|exact O]. intros i Hi. rewrite G by exact Hi.
    cbn [Nat.add]. unfold zbit. rewrite <- Z.testbit_spec' by lia. destruct (Z.testbit n (Z.of_nat i)); reflexivity.
  - intro H. destruct (Nat.leb_spec (zbits n) (length ws)) as [L|L]; cbn [oassert obind]; [|reflexivity].
    apply set_binary_panics. apply zbits_le_iff in L; [|exact Hn].
    destruct (ListDec.NoDup_dec Nat.eq_dec ws) as [ND|ND]; [right|left; exact ND].
    destruct (existsb (fun k => m_mem k v) ws) eqn:X.
    + apply existsb_exists in X. destruct X as (k & I & M). exists k. split; [exact I|]. unfold m_mem in M. destruct (m_get k v); [discriminate|discriminate M].
    + exfalso. apply H. split; [exact L|]. split; [exact ND|]. intros k I. destruct (m_get k v) eqn:G; [|reflexivity].
      assert (T : existsb (fun k => m_mem k v) ws = true) by (apply existsb_exists; exists k; split; [exact I|unfold m_mem; rewrite G; reflexivity]).
      congruence.
Qed.
Print Assumptions C09_set_binary.

(** Along any sequence of calls values never change. *)
Inductive later {F : Field} : values -> values -> Prop :=
| l_refl v : later v v
| l_set k x a v v' : later a v -> v_set k x v = Ok v' -> later a v'
| l_set_boolean k b a v v' : later a v -> v_set_boolean k b v = Ok v' -> later a v'
| l_set_binary ws n a v v' : later a v -> v_set_binary_unsigned ws n v = Ok v' -> later a v'.

Theorem C09_write_once : forall (F : Field) v v', later v v' -> forall k x, m_get k v = Some x ->
  m_get k v' = Some x /\ (forall y, v_set k y v' = Panic).
Proof.
  intros F v v' H k x G. assert (G' : m_get k v' = Some x).
  { induction H as [v|k' x' a v v' _ IH E|k' b a v v' _ IH E|ws n a v v' _ IH E]; auto.
    - exact (v_set_keeps _ _ _ _ E _ _ (IH G)).
    - exact (v_set_boolean_keeps _ _ _ _ E _ _ (IH G)).
    - exact (v_set_binary_keeps _ _ _ _ E _ _ (IH G)). }
  split; [exact G'|]. intro y. unfold v_set. rewrite G'. reflexivity.
Qed.
Print Assumptions C09_write_once.

Example C09_example : let F : Field := F7 in
  (let! v := v_set 2 5 v_new in let! v := v_set_binary_unsigned [3%nat; 1%nat; 4%nat] 5 v in Ok (map (fun k => m_get k v) (seq 0 6)))
    = Ok [Some 1; Some 0; Some 5; Some 1; Some 1; None] /\
  (let! v := v_set 2 5 v_new in v_set 2 5 v) = Panic /\ v_set 0 1 v_new = Panic.
Proof. vm_compute. auto. Qed.

(** ** C11 *)
(** A schedule: the generators run one after the other, each with all its declared inputs available. *)
Theorem C11_execute : forall (F : Field), 2 <= order -> forall g v ok v',
  Forall (fun x => adds (g_run x)) (gd_generators g) -> execute g v = Ok (ok, v') ->
  (exists order_run, Permutation order_run (gd_generators g) /\ runs_in_order order_run v v') /\
  (forall k x, m_get k v = Some x -> m_get k v' = Some x) /\
  (ok = true <-> Forall (sat1 (witness_of v')) (gd_constraints g)).
Proof.
  intros F H g v ok v' HA E. destruct (execute_rio g v ok v' E) as (R & Hok). split; [exact R|]. split.
  - destruct R as (o & P & R). apply (rio_keeps o v v'); [|exact R]. eapply Permutation_Forall; [apply Permutation_sym, P|exact HA].
  - split; [intro T|intro S].
    + subst ok. assert (T := proj1 Hok eq_refl). eapply Forall_impl; [|exact T]. cbv beta. intros c Hc. unfold c_evaluate in Hc.
      destruct (e_evaluate v' (c_a c)) as [x| |] eqn:Ea; try discriminate.
      destruct (e_evaluate v' (c_b c)) as [y| |] eqn:Eb; try discriminate.
      destruct (e_evaluate v' (c_c c)) as [z| |] eqn:Ec; try discriminate. cbn in Hc. inversion Hc as [Hz].
      unfold sat1. rewrite <- (e_evaluate_witness H _ _ _ Ea), <- (e_evaluate_witness H _ _ _ Eb), <- (e_evaluate_witness H _ _ _ Ec).
      apply Z.eqb_eq. exact Hz.
    + destruct ok; [reflexivity|exfalso]. unfold execute in E.
      destruct (exec_loop _ _ _) as [[k v1]| |]; cbn in E; try discriminate.
      destruct (length k =? 0)%nat; cbn in E; [|discriminate].
      destruct (oall (c_evaluate v1) (gd_constraints g)) as [b| |] eqn:O; cbn in E; try discriminate. inversion E; subst.
      apply oall_false in O. destruct O as (c & Ic & Ec). rewrite Forall_forall in S. specialize (S c Ic).
      unfold c_evaluate in Ec.
      destruct (e_evaluate v' (c_a c)) as [x| |] eqn:Ea; try discriminate.
      destruct (e_evaluate v' (c_b c)) as [y| |] eqn:Eb; try discriminate.
      destruct (e_evaluate v' (c_c c)) as [z| |] eqn:Ez; try discriminate. cbn in Ec. inversion Ec as [Hz].
      unfold sat1 in S. rewrite <- (e_evaluate_witness H _ _ _ Ea), <- (e_evaluate_witness H _ _ _ Eb), <- (e_evaluate_witness H _ _ _ Ez) in S.
      apply Z.eqb_neq in Hz. apply Hz. exact S.
Qed.
Print Assumptions C11_execute.

(** As many passes as generators, plus one, are always enough (unless a generator itself diverges). *)
Theorem C11_terminates : forall (F : Field) g v,
  Forall (fun x => forall u, g_run x u <> NoFuel) (gd_generators g) -> execute g v <> NoFuel.
Proof. intros F g v H. apply execute_terminates. exact H. Qed.
Print Assumptions C11_terminates.

(** If an input of some generator has no value and no generator ever provides it, execute panics. *)
Theorem C11_stuck_panics : forall (F : Field) g v x k,
  Forall (fun y => forall u, g_run y u <> NoFuel) (gd_generators g) ->
  In x (gd_generators g) -> In k (g_inputs x) -> m_get k v = None ->
  Forall (fun y => forall u u', g_run y u = Ok u' -> m_get k u = None -> m_get k u' = None) (gd_generators g) ->
  execute g v = Panic.
Proof.
  intros F g v x k HN Ix Ik G Hk. destruct (execute g v) as [[ok v']| |] eqn:E; [exfalso|reflexivity|].
  - destruct (execute_rio g v ok v' E) as ((o & P & R) & _).
    assert (Io : In x o) by (eapply Permutation_in; [apply Permutation_sym, P|exact Ix]).
    assert (Ho : Forall (fun y => forall u u', g_run y u = Ok u' -> m_get k u = None -> m_get k u' = None) o)
      by (eapply Permutation_Forall; [apply Permutation_sym, P|exact Hk]).
    clear - R Io Ho Ik G. induction R as [|y gs v v1 v' A Er R IH]; [destruct Io|].
    inversion Ho as [|? ? H1 H2]; subst. destruct Io as [->|Io].
    + apply (A k Ik). exact G.
    + apply IH; auto. exact (H1 _ _ Er G).
  - exfalso. exact (execute_terminates g v HN E).
Qed.
Print Assumptions C11_stuck_panics.

Example C11_example : let F : Field := F7 in
  let g := mkGadget [mkC (e_wire 1) (e_wire 2) (e_wire 3)]
     [mkG [2%nat] (fun v => let! x := v_get v 2 in v_set 3 (fmul x 5) v); mkG [1%nat] (fun v => let! x := v_get v 1 in v_set 2 (fadd x 1) v)] in
  match execute g [(1%nat, 5); (0%nat, 1)] with Ok (ok, v) => ok = true /\ map (fun k => m_get k v) (seq 0 5) = [Some 1; Some 5; Some 6; Some 2; None] | _ => False end /\
  execute g [(0%nat, 1)] = Panic.
Proof. vm_compute. auto. Qed.

(** ** C12 *)
Theorem C12_order_independent : forall (F : Field) (L L' : list (wgen * list nat)) cs v,
  Forall (fun p => dep_determined (fst p) (snd p)) L -> Permutation L L' ->
  same_outcome (execute (mkGadget cs (map fst L)) v) (execute (mkGadget cs (map fst L')) v).
Proof. intros F L L' cs v HD P. apply execute_confluent; assumption. Qed.
Print Assumptions C12_order_independent.

(** More: any schedule that respects the declared inputs gives the values execute gives. *)
Theorem C12_any_schedule : forall (F : Field) (L : list (wgen * list nat)) cs v vf,
  Forall (fun p => dep_determined (fst p) (snd p)) L -> runs_in_order (map fst L) v vf ->
  forall L', Permutation L L' ->
  exists v', execute (mkGadget cs (map fst L')) v = (let! ok := oall (c_evaluate vf) cs in Ok (ok, v')) /\ same_values v' vf.
Proof. intros F L cs v vf HD R L' P. exact (execute_any_order L L' cs v vf HD P R). Qed.
Print Assumptions C12_any_schedule.

(** The generator of a product is of the required kind. *)
Lemma product_dd {F : Field} x y w : dep_determined
  (mkG (e_deps x ++ e_deps y) (fun v => let! a := e_evaluate v x in let! b := e_evaluate v y in v_set w (fmul a b) v)) [w].
Proof.
  set (tot := fun (f : nat -> option Z) (e : expr) => fold_left (fun s kc => match s, f (fst kc) with Some s, Some x => Some (fadd s (fmul x (snd kc))) | _, _ => None end) e (Some fzero)).
  assert (ET : forall v e, match tot (fun k => m_get k v) e with Some a => e_evaluate v e = Ok a | None => e_evaluate v e = Panic end).
  { intros v e. unfold tot, e_evaluate. generalize fzero. induction e as [|[k c] e IH]; intro z; cbn [fold_left ofold fst snd]; [reflexivity|].
    unfold v_get, ounwrap. destruct (m_get k v) as [a|]; cbn [obind]; [apply IH|].
    assert (N : forall l, fold_left (fun (s : option Z) (kc : nat * Z) => match s with Some s0 => match m_get (fst kc) v with Some x0 => Some (fadd s0 (fmul x0 (snd kc))) | None => None end | None => None end) l None = None)
      by (induction l; auto). rewrite N. reflexivity. }
  assert (EX : forall f1 f2 e, (forall k, In k (e_deps e) -> f1 k = f2 k) -> tot f1 e = tot f2 e).
  { intros f1 f2 e He. unfold tot. generalize (Some fzero). unfold e_deps in He. induction e as [|[k c] e IH]; intro z; cbn [fold_left fst snd]; [reflexivity|].
    rewrite (He k) by (left; reflexivity). apply IH. intros j Hj. apply He. right. exact Hj. }
  exists (fun f => match tot f x, tot f y with Some a, Some b => Some (fun _ => fmul a b) | _, _ => None end). split.
  - intros f1 f2 He. rewrite (EX f1 f2 x), (EX f1 f2 y); [reflexivity|..]; intros k Hk; apply He, in_or_app; auto.
  - intro v. cbn [g_run]. pose proof (ET v x) as X. pose proof (ET v y) as Y.
    destruct (tot (fun k => m_get k v) x) as [a|]; [|rewrite X; reflexivity].
    destruct (tot (fun k => m_get k v) y) as [b|]; [|rewrite X, Y; reflexivity].
    rewrite X, Y. cbn [obind forallb]. unfold v_contains, m_mem. destruct (m_get w v) eqn:G; cbn [negb andb].
    + unfold v_set. rewrite G. reflexivity.
    + destruct (v_set_fresh w (fmul a b) v G) as (v' & E & O). exists v'. split; [exact E|]. intro k. rewrite O.
      unfold HonestP.memb. cbn [existsb]. rewrite orb_false_r. destruct (k =? w)%nat; reflexivity.
Qed.

Example C12_example : let F : Field := F7 in
  let mk a b w := mkG (e_deps (e_wire a) ++ e_deps (e_wire b)) (fun v => let! x := e_evaluate v (e_wire a) in let! y := e_evaluate v (e_wire b) in v_set w (fmul x y) v) in
  let L := [(mk 1 1 2, [2]); (mk 2 1 3, [3]); (mk 3 2 4, [4])]%nat in
  dd_list L /\
  match execute (mkGadget [] (map fst L)) [(1%nat, 3); (0%nat, 1)], execute (mkGadget [] (map fst (rev L))) [(1%nat, 3); (0%nat, 1)] with
  | Ok (_, v1), Ok (_, v2) => map (fun k => m_get k v1) (seq 0 6) = [Some 1; Some 3; Some 2; Some 6; Some 5; None] /\
                              map (fun k => m_get k v2) (seq 0 6) = [Some 1; Some 3; Some 2; Some 6; Some 5; None]
  | _, _ => False end.
Proof.
  intros F mk L. split.
  - repeat constructor; apply product_dd.
  - vm_compute. auto.
Qed.
