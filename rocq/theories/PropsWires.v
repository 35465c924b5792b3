(** How many wires a circuit has, and circuits whose wire numbers fit in the u32 of the source. *)
From Coq Require Import ZArith List Bool Arith Lia.
From Verif Require Import Base FieldM ExprM BuilderM GadgetsM WaksmanM CryptoM CurveM MonoP PropsBuilder WiresP Demo.
Import ListNotations.
Open Scope Z_scope.

(** [excess k m]: the number [k] assigned to a method, by its name; that a call hands out at most [k] wires more than
    it adds constraints is the first theorem.  Sequencing adds the numbers up. *)
Inductive excess {F : Field} : forall {A : Type}, Z -> B A -> Type :=
| ex_pure A (o : outcome A) : excess 0 (blift o)
| ex_then A C k1 k2 (m : B A) (f : A -> B C) : excess k1 m -> (forall a, excess k2 (f a)) -> excess (k1 + k2) (bbind m f)
| ex_wire : excess 1 (b_wire)
| ex_wires n : excess (Z.of_nat n) (b_wires n)
| ex_boolean_wire : excess 0 (boolean_wire)
| ex_binary_wire n : excess 0 (binary_wire n)
| ex_generator deps run : excess 0 (b_generator deps run)
| ex_assert_product x y z : excess (-1) (assert_product x y z)
| ex_assert_boolean x : excess (-1) (assert_boolean x)
| ex_assert_equal x y : excess (-1) (assert_equal x y)
| ex_assert_zero x : excess (-1) (assert_zero x)
| ex_assert_true x : excess (-1) (assert_true x)
| ex_assert_false x : excess (-1) (assert_false x)
| ex_product x y : excess 0 (product x y)
| ex_exponentiation x p : excess 0 (exponentiation x p)
| ex_inverse x : excess 0 (inverse x)
| ex_assert_nonzero x : excess 0 (assert_nonzero x)
| ex_assert_nonequal x y : excess 0 (assert_nonequal x y)
| ex_nonzero x : excess 0 (nonzero x)
| ex_not x : excess 0 (b_not x)
| ex_and x y : excess 0 (b_and x y)
| ex_or x y : excess 0 (b_or x y)
| ex_xor x y : excess 0 (b_xor x y)
| ex_zero x : excess 0 (g_zero x)
| ex_equal x y : excess 0 (g_equal x y)
| ex_selection c x y : excess 0 (selection c x y)
| ex_inverse_or_zero x : excess 0 (inverse_or_zero x)
| ex_quotient x y : excess 0 (quotient x y)
| ex_quotient_unsafe x y : excess 1 (quotient_unsafe x y)
| ex_split x : excess (-4) (split x)
| ex_split_allowing_ambiguity x : excess (-1) (split_allowing_ambiguity x)
| ex_split_bounded x n : excess (-1) (split_bounded x n)
| ex_cmp_binary x y less strict : excess (-2) (cmp_binary x y less strict)
| ex_assert_lt_binary x y : excess (-3) (assert_lt_binary x y)
| ex_assert_le_binary x y : excess (-3) (assert_le_binary x y)
| ex_assert_gt_binary x y : excess (-3) (assert_gt_binary x y)
| ex_assert_ge_binary x y : excess (-3) (assert_ge_binary x y)
| ex_cmp x y less strict : excess (-7) (cmp x y less strict)
| ex_assert_lt x y : excess (-8) (assert_lt x y)
| ex_assert_le x y : excess (-8) (assert_le x y)
| ex_assert_gt x y : excess (-8) (assert_gt x y)
| ex_assert_ge x y : excess (-8) (assert_ge x y)
| ex_modulus x y : excess (-7) (modulus x y)
| ex_divides x y : excess (-7) (divides x y)
| ex_binary_summation ts : excess (-1) (binary_summation ts)
| ex_binary_summation_ignoring_overflow ts : excess (-1) (binary_summation_ignoring_overflow ts)
| ex_binary_summation_asserting_no_overflow ts : excess (-1) (binary_summation_asserting_no_overflow ts)
| ex_binary_assert_zero x : excess 0 (binary_assert_zero x)
| ex_bitwise_not x : excess 0 (bitwise_not x)
| ex_bitwise_and x y : excess 0 (bitwise_and x y)
| ex_bitwise_or x y : excess 0 (bitwise_or x y)
| ex_bitwise_xor x y : excess 0 (bitwise_xor x y)
| ex_rotate_inc x n : excess 0 (rotate_inc x n)
| ex_rotate_dec x n : excess 0 (rotate_dec x n)
| ex_shift_inc x n : excess 0 (shift_inc x n)
| ex_shift_dec x n : excess 0 (shift_dec x n)
| ex_random_access items i : excess (-1) (random_access items i)
| ex_random_access_binary items bits : excess 0 (random_access_binary items bits)
| ex_assert_permutation a b : excess 0 (assert_permutation a b)
| ex_sort_ascending l : excess (-3) (sort_ascending l)
| ex_sort_descending l : excess (-3) (sort_descending l)
| ex_monomial n x : excess 0 (permute (monomial n) x)
| ex_monomial_inverse n x : excess 0 (p_inverse (monomial n) x)
| ex_mimc_encrypt cs n key input : excess 0 (mimc_encrypt cs (monomial n) key input)
| ex_mimc_decrypt cs n key output : excess 0 (mimc_decrypt cs (monomial n) key output)
| ex_davies_meyer k c x y : (forall k' i, excess k (encrypt c k' i)) -> excess k (davies_meyer c x y)
| ex_miyaguchi_preneel k c x y : (forall k' i, excess k (encrypt c k' i)) -> excess k (miyaguchi_preneel c x y)
| ex_merkle_damgard k iv m blocks : (forall x y, excess k (m x y)) -> excess (Z.of_nat (S (length blocks)) * k) (merkle_damgard iv m blocks)
| ex_merkle_tree_root k m leaf path : 0 <= k -> (forall x y, excess k (m x y)) ->
    excess (Z.of_nat (length (siblings path)) * k) (merkle_tree_root m leaf path)
| ex_assert_merkle_tree_membership k m leaf root path : 0 <= k -> (forall x y, excess k (m x y)) ->
    excess (Z.of_nat (length (siblings path)) * k) (assert_merkle_tree_membership m leaf root path)
| ex_sponge s inputs n : (forall xs, excess 0 (mp_permute (sp_perm s) xs)) -> excess 0 (sponge_evaluate s inputs n)
| ex_poseidon p xs : excess 0 (poseidon_permute p xs)
| ex_rescue r xs : excess 0 (rescue_permute r xs)
| ex_ed_expr_new C x y : excess (-1) (ed_expr_new C x y)
| ex_ed_add C l r : excess 2 (ed_add_expressions C l r)
| ex_ed_double C p : excess 2 (ed_double_expression C p)
| ex_mul_boolean C p b : excess 0 (mul_boolean_expression (edwards_group C) p b)
| ex_mul_scalar C p e : excess (4 * Z.of_nat max_bits - 1) (mul_scalar_expression (edwards_group C) p e)
| ex_schnorr k C gen sg msg pk (m : compression) : (forall x y, excess k (m x y)) ->
    excess (8 * Z.of_nat max_bits - 1 + k) (schnorr_verify (mkCyclic (edwards_group C) gen) sg msg pk m).

(** The wires handed out and the constraints added between two states of a builder. *)
Definition new_wires (b b' : builder) : Z := Z.of_nat (next b') - Z.of_nat (next b).
Definition new_constraints (b b' : builder) : Z := Z.of_nat (length (constraints b')) - Z.of_nat (length (constraints b)).

Lemma excess_pays : forall (F : Field) A k (m : B A), excess k m -> pays k m.
Proof.
  induction 1.
  - apply pays_lift.
  - apply pays_bind; auto.
  - apply pays_wire.
  - apply pays_wires.
  - apply pays_boolean_wire.
  - apply pays_binary_wire.
  - apply pays_generator.
  - apply pays_assert_product.
  - apply pays_assert_boolean.
  - apply pays_assert_equal.
  - apply pays_assert_zero.
  - apply pays_assert_true.
  - apply pays_assert_false.
  - apply pays_product.
  - apply pays_exponentiation.
  - apply pays_inverse.
  - apply pays_assert_nonzero.
  - apply pays_assert_nonequal.
  - apply pays_nonzero.
  - apply pays_not.
  - apply pays_and.
  - apply pays_or.
  - apply pays_xor.
  - apply pays_zero.
  - apply pays_equal.
  - apply pays_selection.
  - apply pays_inverse_or_zero.
  - apply pays_quotient.
  - apply pays_quotient_unsafe.
  - apply pays_split.
  - apply pays_split_allowing_ambiguity.
  - apply pays_split_bounded.
  - apply pays_cmp_binary.
  - apply pays_assert_lt_binary.
  - apply pays_assert_le_binary.
  - apply pays_assert_gt_binary.
  - apply pays_assert_ge_binary.
  - apply pays_cmp.
  - apply pays_assert_lt.
  - apply pays_assert_le.
  - apply pays_assert_gt.
  - apply pays_assert_ge.
  - apply pays_modulus.
  - apply pays_divides.
  - apply pays_binary_summation.
  - apply pays_binary_summation_ignoring_overflow.
  - apply pays_binary_summation_asserting_no_overflow.
  - apply pays_binary_assert_zero.
  - apply pays_bitwise_not.
  - apply pays_bitwise2; intros; apply pays_and.
  - apply pays_bitwise2; intros; apply pays_or.
  - apply pays_bitwise2; intros; apply pays_xor.
  - apply pays_rotate_inc.
  - apply pays_rotate_dec.
  - apply pays_shift_inc.
  - apply pays_shift_dec.
  - apply pays_random_access.
  - apply pays_random_access_binary.
  - apply pays_assert_permutation.
  - apply pays_sort_ascending.
  - apply pays_sort_descending.
  - apply pays_monomial.
  - apply pays_monomial_inv.
  - apply pays_mimc_encrypt.
  - apply pays_mimc_decrypt.
  - apply pays_davies_meyer; auto.
  - apply pays_miyaguchi_preneel; auto.
  - apply pays_merkle_damgard; auto.
  - apply pays_merkle_tree_root; auto.
  - apply pays_membership; auto.
  - apply pays_sponge_evaluate; auto.
  - apply pays_poseidon.
  - apply pays_rescue.
  - apply pays_ed_expr_new.
  - apply pays_ed_add.
  - apply pays_ed_double.
  - apply pays_mul_boolean.
  - apply pays_mul_scalar.
  - apply pays_schnorr; auto.
Qed.

(** A call hands out at most [k] wires more than it adds constraints, on every builder. *)
Theorem C94_excess : forall (F : Field) A k (m : B A), excess k m -> forall b r b', m b = Ok (r, b') ->
  new_wires b b' <= new_constraints b b' + k.
Proof. intros F A k m H b r b' E. pose proof (excess_pays F A k m H b r b' E). unfold new_wires, new_constraints. lia. Qed.
Print Assumptions C94_excess.

(** ** The u32 counter.  [wire_u32 full] is the [wire] of the source (gadget_builder.rs 31-35), whose counter is a u32:
    the increment works below 2^32 - 1; [full] is whatever happens at 2^32 - 1 (a panic in a debug build, a wrap to 0
    in a release build). *)
Definition u32_max : Z := 2 ^ 32 - 1.
Definition wire_u32 (full : B wire) : B wire := fun b =>
  if Z.of_nat (next b) <? u32_max then Ok (next b, mkB (next b + 1) (constraints b) (generators b)) else full b.

(** [in_u32 full m m']: [m'] is [m] with the u32 counter in place of the unbounded one of the model. *)
Inductive in_u32 {F : Field} (full : B wire) : forall {A : Type}, B A -> B A -> Prop :=
| u_pure A (o : outcome A) : in_u32 full (blift o) (blift o)
| u_wire : in_u32 full b_wire (wire_u32 full)
| u_generator deps run : in_u32 full (b_generator deps run) (b_generator deps run)
| u_assert_product x y z : in_u32 full (assert_product x y z) (assert_product x y z)
| u_then A C (m m' : B A) (f f' : A -> B C) : in_u32 full m m' -> (forall a, in_u32 full (f a) (f' a)) ->
    in_u32 full (bbind m f) (bbind m' f').

Lemma in_u32_grows : forall (F : Field) full A (m m' : B A), in_u32 full m m' -> forall b r b', m b = Ok (r, b') -> (next b <= next b')%nat.
Proof.
  induction 1; intros b r b' E.
  - unfold blift in E. destruct o; inversion E. lia.
  - inversion E. cbn [next]. lia.
  - inversion E. cbn [next]. lia.
  - inversion E. cbn [next]. lia.
  - unfold bbind in E. destruct (m b) as [[a b1]| |] eqn:E1; try discriminate. specialize (IHin_u32 _ _ _ E1). specialize (H1 _ _ _ _ E). lia.
Qed.

(** Every method has such a version (given explicitly: no choice is used). *)
Section Versions.
Context {F : Field} (full : B wire).
Definition version {A} (m : B A) : Type := { m' | in_u32 full m m' }.
Lemma v_lift {A} (o : outcome A) : version (blift o).
Proof. eexists. apply u_pure. Qed.
Lemma v_ret {A} (a : A) : version (bret a).
Proof. exact (v_lift (Ok a)). Qed.
Lemma v_wire : version b_wire.
Proof. eexists. apply u_wire. Qed.
Lemma v_generator d r : version (b_generator d r).
Proof. eexists. apply u_generator. Qed.
Lemma v_assert_product x y z : version (assert_product x y z).
Proof. eexists. apply u_assert_product. Qed.
Lemma v_bind {A C} (m : B A) (f : A -> B C) : version m -> (forall a, version (f a)) -> version (bbind m f).
Proof. intros [m' H] G. exists (bbind m' (fun a => proj1_sig (G a))). apply u_then; [exact H|]. intro a. exact (proj2_sig (G a)). Qed.
Lemma v_lift_bind {A C} (o : outcome A) (f : A -> B C) : (forall a, o = Ok a -> version (f a)) -> version (bbind (blift o) f).
Proof. intro G. destruct o as [a| |]; [exact (G a eq_refl)|exact (v_lift Panic)|exact (v_lift NoFuel)]. Qed.
Lemma v_bmap {A C} (f : A -> B C) l : (forall a, version (f a)) -> version (bmap f l).
Proof. intro H. induction l; cbn [bmap]; [apply v_ret|]. apply v_bind; [apply H|intro]. apply v_bind; [exact IHl|intro; apply v_ret]. Qed.
Lemma v_bfold {A S} (f : S -> A -> B S) l : (forall s a, version (f s a)) -> forall s, version (bfold f l s).
Proof. intro H. induction l; intro s; cbn [bfold]; [apply v_ret|]. apply v_bind; [apply H|intro; apply IHl]. Qed.
End Versions.
Ltac ver_step := first
  [ assumption | apply v_ret | apply v_lift | apply v_wire | apply v_generator | apply v_assert_product | apply v_bind; [|intro] | apply v_bmap; intro | apply v_bfold; intros ? ?
  | match goal with |- version _ (match ?x with _ => _ end) => destruct x end ].
Ltac ver := repeat ver_step.

Section Versions2.
Context {F : Field} (full : B wire).
Notation version := (version full).
Lemma v_wires n : version (b_wires n).
Proof. unfold b_wires. ver. Qed.
Lemma v_boolean_wire : version boolean_wire.
Proof. unfold boolean_wire, assert_boolean. ver. Qed.
Lemma v_binary_wire n : version (binary_wire n).
Proof. unfold binary_wire. apply v_bmap. intro. apply v_boolean_wire. Qed.
Lemma v_product x y : version (product x y).
Proof. unfold product. ver. Qed.
Lemma v_exponentiation x p : version (exponentiation x p).
Proof. unfold exponentiation. repeat first [apply v_product|ver_step]. Qed.
Lemma v_inverse x : version (inverse x).
Proof. unfold inverse. ver. Qed.
Lemma v_nonzero x : version (nonzero x).
Proof. unfold nonzero. ver. Qed.
Lemma v_selection c x y : version (selection c x y).
Proof. unfold selection. repeat first [apply v_product|ver_step]. Qed.
Lemma v_inverse_or_zero x : version (inverse_or_zero x).
Proof. unfold inverse_or_zero. repeat first [apply v_nonzero|ver_step]. Qed.
Lemma v_quotient_unsafe x y : version (quotient_unsafe x y).
Proof. unfold quotient_unsafe. ver. Qed.
Lemma v_swrc x n : version (split_without_range_check x n).
Proof. unfold split_without_range_check, assert_equal. cbv zeta. repeat first [apply v_binary_wire|ver_step]. Qed.
Lemma v_cmp_binary x y less strict : version (cmp_binary x y less strict).
Proof.
  unfold cmp_binary, cmp_subtractive, split_bounded, assert_nonzero, assert_boolean. cbv zeta.
  repeat first [apply v_wires|apply v_product|apply v_selection|apply v_inverse|apply v_swrc|ver_step].
Qed.
Lemma v_split x : version (split x).
Proof. unfold split, assert_lt_binary, lt_binary, assert_true, assert_equal. repeat first [apply v_swrc|apply v_cmp_binary|ver_step]. Qed.
Lemma v_cmp x y less strict : version (cmp x y less strict).
Proof. unfold cmp, split_allowing_ambiguity. destruct less; repeat first [apply v_swrc|apply v_split|apply v_cmp_binary|ver_step]. Qed.
Lemma v_modulus x y : version (modulus x y).
Proof. unfold modulus, assert_lt, lt, assert_true, assert_equal. repeat first [apply v_cmp|ver_step]. Qed.
Lemma v_binary_summation ts : version (binary_summation ts).
Proof. unfold binary_summation, assert_equal. cbv zeta. repeat first [apply v_binary_wire|ver_step]. Qed.
Lemma v_binary_assert_zero x : version (binary_assert_zero x).
Proof. unfold binary_assert_zero, assert_zero, assert_equal. ver. Qed.
Lemma v_bitwise2 op x y : (forall a b, version (op a b)) -> version (bitwise2 op x y).
Proof. intro H. unfold bitwise2. repeat first [apply H|ver_step]. Qed.
Lemma v_select_pairs lsb : forall n items, (length items <= n)%nat -> version (select_pairs lsb items).
Proof.
  induction n as [|n IH]; intros [|x [|y r]] L; try (exfalso; cbn [length] in L; lia); try apply v_ret.
  change (select_pairs lsb (x :: y :: r)) with (s <- selection lsb y x ;; ss <- select_pairs lsb r ;; bret (s :: ss)).
  cbn [length] in L. apply v_bind; [apply v_selection|intro]. apply v_bind; [apply IH; lia|intro; apply v_ret].
Qed.
Lemma v_random_access_binary : forall bits items, version (random_access_binary items bits).
Proof.
  induction bits as [|lsb bits IH]; intros items; destruct items as [|x [|y r]]; cbn [random_access_binary]; try solve [ver].
  - apply v_bind; [apply v_ret|intro; apply IH].
  - apply v_bind; [eapply v_select_pairs; reflexivity|intro; apply IH].
Qed.
Lemma v_create_switch x y : version (create_switch x y).
Proof. unfold create_switch. repeat first [apply v_boolean_wire|apply v_selection|ver_step]. Qed.
Lemma v_assert_permutation_fuel : forall fuel a b, version (assert_permutation_fuel fuel a b).
Proof.
  induction fuel as [|f IH]; intros a b; [apply v_lift|]. cbn [assert_permutation_fuel]. cbv zeta. unfold switch_layer, assert_permutation_2x2, assert_equal.
  repeat first [apply IH|apply v_create_switch|ver_step].
Qed.
Lemma v_sort_ascending l : version (sort_ascending l).
Proof.
  unfold sort_ascending, split_allowing_ambiguity, assert_le_binary, le_binary, assert_true, assert_equal. cbv zeta.
  repeat first [apply v_wires|apply v_assert_permutation_fuel|apply v_swrc|apply v_split|apply v_cmp_binary|ver_step].
Qed.
Lemma v_monomial_inverse n x : version (monomial_inverse n x).
Proof. unfold monomial_inverse, assert_equal. repeat first [apply v_exponentiation|ver_step]. Qed.
Lemma v_sbox sb x : version (sbox_permute sb x).
Proof.
  unfold sbox_permute. apply v_lift_bind. intros p E. destruct sb; cbn [sbox_to_permutation] in E.
  - destruct (el_from 3) as [e| |]; cbn [obind] in E; try discriminate. destruct (monomial_new e) as [n| |]; cbn [obind] in E; try discriminate.
    inversion E. apply v_exponentiation.
  - destruct (el_from 5) as [e| |]; cbn [obind] in E; try discriminate. destruct (monomial_new e) as [n| |]; cbn [obind] in E; try discriminate.
    inversion E. apply v_exponentiation.
  - inversion E. apply v_inverse_or_zero.
Qed.
Lemma v_merkle_tree_root m leaf path : (forall x y, version (m x y)) -> version (merkle_tree_root m leaf path).
Proof. intro H. unfold merkle_tree_root, merkle_tree_step. repeat first [apply H|apply v_selection|ver_step]. Qed.
Lemma v_sponge_step s i c : (forall xs, version (mp_permute (sp_perm s) xs)) -> version (sponge_step s i c).
Proof. intro H. unfold sponge_step. cbv zeta. repeat first [apply H|ver_step]. Qed.
Lemma v_sponge_squeeze s n : (forall xs, version (mp_permute (sp_perm s) xs)) -> forall fuel i c o, version (sponge_squeeze fuel s i c o n).
Proof.
  intro H. induction fuel as [|f IH]; intros i c o; cbn [sponge_squeeze]; repeat first [apply IH|apply v_sponge_step; exact H|ver_step].
Qed.
Lemma v_ed_add C l r : version (ed_add_expressions C l r).
Proof. unfold ed_add_expressions. destruct l, r. repeat first [apply v_product|apply v_quotient_unsafe|ver_step]. Qed.
Lemma v_ed_double C p : version (ed_double_expression C p).
Proof. unfold ed_double_expression. destruct p. repeat first [apply v_product|apply v_quotient_unsafe|ver_step]. Qed.
Lemma v_mul_boolean C p b : version (mul_boolean_expression (edwards_group C) p b).
Proof. unfold mul_boolean_expression. repeat first [apply v_selection|ver_step]. Qed.
Lemma v_mul_scalar C p e : version (mul_scalar_expression (edwards_group C) p e).
Proof.
  unfold mul_scalar_expression, split_allowing_ambiguity. repeat first [apply v_swrc|apply v_mul_boolean|apply v_ed_add|apply v_ed_double|ver_step].
Qed.
End Versions2.

Lemma excess_version : forall (F : Field) full A k (m : B A), excess k m -> version full m.
Proof.
  induction 1.
  - apply v_lift.
  - apply v_bind; auto.
  - apply v_wire.
  - apply v_wires.
  - apply v_boolean_wire.
  - apply v_binary_wire.
  - apply v_generator.
  - apply v_assert_product.
  - unfold assert_boolean; ver.
  - apply v_assert_product.
  - apply v_assert_product.
  - apply v_assert_product.
  - apply v_assert_product.
  - apply v_product.
  - apply v_exponentiation.
  - apply v_inverse.
  - apply v_bind; [apply v_inverse|intro; apply v_ret].
  - apply v_bind; [apply v_inverse|intro; apply v_ret].
  - apply v_nonzero.
  - apply v_ret.
  - apply v_product.
  - apply v_bind; [apply v_product|intro; apply v_ret].
  - apply v_bind; [apply v_product|intro; ver].
  - apply v_bind; [apply v_nonzero|intro; apply v_ret].
  - apply v_bind; [apply v_nonzero|intro; apply v_ret].
  - apply v_selection.
  - apply v_inverse_or_zero.
  - apply v_bind; [apply v_inverse|intro; apply v_product].
  - apply v_quotient_unsafe.
  - apply v_split.
  - apply v_swrc.
  - apply v_bind; [apply v_lift|intro; apply v_swrc].
  - apply v_cmp_binary.
  - apply v_bind; [apply v_cmp_binary|intro; apply v_assert_product].
  - apply v_bind; [apply v_cmp_binary|intro; apply v_assert_product].
  - apply v_bind; [apply v_cmp_binary|intro; apply v_assert_product].
  - apply v_bind; [apply v_cmp_binary|intro; apply v_assert_product].
  - apply v_cmp.
  - apply v_bind; [apply v_cmp|intro; apply v_assert_product].
  - apply v_bind; [apply v_cmp|intro; apply v_assert_product].
  - apply v_bind; [apply v_cmp|intro; apply v_assert_product].
  - apply v_bind; [apply v_cmp|intro; apply v_assert_product].
  - apply v_modulus.
  - apply v_bind; [apply v_modulus|intro]. apply v_bind; [apply v_nonzero|intro; apply v_ret].
  - apply v_binary_summation.
  - apply v_bind; [apply v_binary_summation|intro; apply v_lift].
  - unfold binary_summation_asserting_no_overflow. repeat first [apply v_binary_summation|apply v_binary_assert_zero|ver_step].
  - apply v_binary_assert_zero.
  - unfold bitwise_not, b_not. ver.
  - apply v_bitwise2. intros. apply v_product.
  - apply v_bitwise2. intros. apply v_bind; [apply v_product|intro; apply v_ret].
  - apply v_bitwise2. intros. apply v_bind; [apply v_product|intro; ver].
  - unfold rotate_inc. cbv zeta. ver.
  - unfold rotate_dec. cbv zeta. ver.
  - unfold shift_inc. ver.
  - unfold shift_dec. cbv zeta. ver.
  - apply v_bind; [apply v_bind; [apply v_lift|intro; apply v_swrc]|intro; apply v_random_access_binary].
  - apply v_random_access_binary.
  - apply v_assert_permutation_fuel.
  - apply v_sort_ascending.
  - apply v_bind; [apply v_sort_ascending|intro; apply v_ret].
  - apply v_exponentiation.
  - apply v_monomial_inverse.
  - unfold mimc_encrypt. repeat first [apply v_exponentiation|ver_step].
  - unfold mimc_decrypt. repeat first [apply v_monomial_inverse|ver_step].
  - unfold davies_meyer. apply v_bind; [auto|intro; apply v_ret].
  - unfold miyaguchi_preneel. apply v_bind; [auto|intro; apply v_ret].
  - unfold merkle_damgard. apply v_bind; [apply v_bfold; auto|intro]. apply v_bind; [apply v_lift|auto].
  - apply v_merkle_tree_root. auto.
  - apply v_bind; [apply v_merkle_tree_root; auto|intro; apply v_assert_product].
  - unfold sponge_evaluate. repeat first [apply v_sponge_step; assumption|apply v_sponge_squeeze; assumption|ver_step].
  - unfold poseidon_permute, update_first. repeat first [apply v_sbox|ver_step].
  - unfold rescue_permute, rescue_pi1, rescue_pi2. repeat first [apply v_exponentiation|apply v_monomial_inverse|ver_step].
  - unfold ed_expr_new. repeat first [apply v_product|apply v_assert_product|ver_step].
  - apply v_ed_add.
  - apply v_ed_double.
  - apply v_mul_boolean.
  - apply v_mul_scalar.
  - unfold schnorr_verify. cbn [cg_group]. repeat first [apply v_mul_scalar|apply v_ed_add|apply v_assert_product|auto; fail|ver_step].
Qed.
Theorem C94_version : forall (F : Field) full A k (m : B A), excess k m -> exists m', in_u32 full m m'.
Proof. intros F full A k m H. destruct (excess_version F full A k m H) as [m' U]. eauto. Qed.
Print Assumptions C94_version.

(** Where the wires fit, the two agree, whatever happens at the limit. *)
Theorem C94_same : forall (F : Field) full A (m m' : B A), in_u32 full m m' -> forall b r b', m b = Ok (r, b') ->
  Z.of_nat (next b') <= u32_max -> m' b = Ok (r, b').
Proof.
  induction 1; intros b r b' E L; auto.
  - inversion E; subst. cbn [next] in L. unfold wire_u32. replace (Z.of_nat (next b) <? u32_max) with true.
    + rewrite Nat.add_1_r. reflexivity.
    + symmetry. apply Z.ltb_lt. lia.
  - unfold bbind in E |- *. destruct (m b) as [[a b1]| |] eqn:E1; try discriminate.
    pose proof (in_u32_grows _ _ _ _ _ (H0 a) _ _ _ E). rewrite (IHin_u32 _ _ _ E1) by lia. exact (H1 _ _ _ _ E L).
Qed.
Print Assumptions C94_same.

(** With overflow checks: a method of the source succeeds exactly when the model's does and the wires fit. *)
Theorem C94_checked : forall (F : Field) A (m m' : B A), in_u32 (fun _ => Panic) m m' -> forall b, Z.of_nat (next b) <= u32_max ->
  forall r b', m' b = Ok (r, b') <-> m b = Ok (r, b') /\ Z.of_nat (next b') <= u32_max.
Proof.
  intros F A m m' H b L r b'. split; [|intros [E L']; eapply C94_same; eauto].
  revert b L r b'. induction H; intros b L r b' E.
  - split; [exact E|]. unfold blift in E. destruct o; inversion E; subst. exact L.
  - unfold wire_u32 in E. destruct (Z.of_nat (next b) <? u32_max) eqn:E1; try discriminate. apply Z.ltb_lt in E1. inversion E; subst.
    cbn [next]. unfold b_wire. rewrite Nat.add_1_r. split; [reflexivity|lia].
  - split; [exact E|]. inversion E; subst. exact L.
  - split; [exact E|]. inversion E; subst. exact L.
  - unfold bbind in E |- *. destruct (m' b) as [[a b1]| |] eqn:E1; try discriminate. destruct (IHin_u32 _ L _ _ E1) as [-> L1]. eauto.
Qed.
Print Assumptions C94_checked.

(** A call is unaffected by the limit if the wires so far, its excess and the constraints it adds stay below 2^32. *)
Theorem C94_fits : forall (F : Field) full A k (m m' : B A), excess k m -> in_u32 full m m' -> forall b r b', m b = Ok (r, b') ->
  Z.of_nat (next b) + k + new_constraints b b' < 2 ^ 32 -> m' b = Ok (r, b').
Proof.
  intros F full A k m m' H U b r b' E L. apply (C94_same _ _ _ _ _ U _ _ _ E).
  pose proof (C94_excess _ _ _ _ H _ _ _ E). unfold new_wires, new_constraints, u32_max in *. lia.
Qed.
Print Assumptions C94_fits.

(** A circuit over [n] input wires built by calls of excess at most 0: with fewer than 2^32 - 1 - n constraints it is
    what the model says, and every wire is less than 2^32. *)
Theorem C94_circuit : forall (F : Field) full A n k (m : list wire -> B A) m', (forall ws, excess k (m ws)) -> k <= 0 ->
  in_u32 full (bbind (b_wires n) m) m' -> forall r b, bbind (b_wires n) m b_new = Ok (r, b) ->
  Z.of_nat n + Z.of_nat (length (constraints b)) < 2 ^ 32 - 1 -> m' b_new = Ok (r, b) /\ Z.of_nat (next b) <= 2 ^ 32 - 1.
Proof.
  intros F full A n k m m' H K U r b E L. assert (X : excess (Z.of_nat n + k) (bbind (b_wires n) m)) by (apply ex_then; [apply ex_wires|exact H]).
  pose proof (C94_excess _ _ _ _ X _ _ _ E) as W. unfold new_wires, new_constraints in W. cbn [b_new next constraints length] in W.
  split; [|lia]. apply (C94_same _ _ _ _ _ U _ _ _ E). unfold u32_max. lia.
Qed.
Print Assumptions C94_circuit.

(** ** Non-vacuity: [wires] and [product] of the source, with the u32 counter. *)
Definition wires_u32 (full : B wire) (n : nat) : B (list wire) := bmap (fun _ => wire_u32 full) (seq 0 n).
Definition product_u32 {F : Field} (full : B wire) (x y : expr) : B expr :=
  match e_as_constant x with
  | Some c => blift (Ok (e_scale y c))
  | None =>
    match e_as_constant y with
    | Some c => blift (Ok (e_scale x c))
    | None =>
      w <- wire_u32 full ;;
      assert_product x y (e_wire w) ;;
      b_generator (e_deps x ++ e_deps y) (fun v =>
        let! a := e_evaluate v x in
        let! b := e_evaluate v y in
        v_set w (fmul a b) v) ;;
      blift (Ok (e_wire w))
    end
  end.
Lemma u_ret {F : Field} full A (a : A) : in_u32 full (bret a) (bret a).
Proof. exact (u_pure full A (Ok a)). Qed.
Lemma u_wires {F : Field} full n : in_u32 full (b_wires n) (wires_u32 full n).
Proof.
  unfold b_wires, wires_u32. induction (seq 0 n) as [|i l IH]; cbn [bmap]; [apply u_ret|].
  apply u_then; [apply u_wire|intro]. apply u_then; [exact IH|intro; apply u_ret].
Qed.
Lemma u_product {F : Field} full x y : in_u32 full (product x y) (product_u32 full x y).
Proof.
  unfold product, product_u32. destruct (e_as_constant x); [exact (u_ret full _ _)|]. destruct (e_as_constant y); [exact (u_ret full _ _)|].
  apply u_then; [apply u_wire|intro]. apply u_then; [apply u_assert_product|intro]. apply u_then; [apply u_generator|intro; exact (u_ret full _ _)].
Qed.

(** At the limit: an overflow check panics; without one the counter wraps, and the wire after the next is wire 0, the
    constant one. *)
Definition wrapping : B wire := fun b => Ok (next b, mkB 0 (constraints b) (generators b)).
Theorem C94_at_the_limit : forall b, Z.of_nat (next b) = u32_max ->
  wire_u32 (fun _ => Panic) b = Panic /\
  exists b', bbind (wire_u32 wrapping) (fun _ => wire_u32 wrapping) b = Ok (0%nat, b').
Proof.
  intros b E. unfold bbind, wire_u32. replace (Z.of_nat (next b) <? u32_max) with false by (symmetry; apply Z.ltb_ge; lia).
  split; [reflexivity|]. unfold wrapping at 1. cbn [next]. eexists. reflexivity.
Qed.
Print Assumptions C94_at_the_limit.

Example C94_example : let F : Field := F97 in
  (* three inputs and a product of two of them, with the checked counter *)
  (exists r b, bbind (wires_u32 (fun _ => Panic) 3) (fun ws => product_u32 (fun _ => Panic) (e_wire 1) (e_wire 2)) b_new = Ok (r, b) /\
     next b = 5%nat /\ length (constraints b) = 1%nat) /\
  (* the numbers are reached: an addition of points has two wires without a constraint *)
  (exists r b, @ed_add_expressions F (mkEd 1 5) (e_wire 1, e_wire 2) (e_wire 3, e_wire 4) (mkB 5 [] []) = Ok (r, b) /\
     new_wires (mkB 5 [] []) b = 7 /\ new_constraints (mkB 5 [] []) b = 5) /\
  (exists r b, @split F (e_wire 1) (mkB 2 [] []) = Ok (r, b) /\ new_wires (mkB 2 [] []) b + 4 <= new_constraints (mkB 2 [] []) b).
Proof.
  intro F. split; [|split].
  - destruct (bbind (b_wires 3) (fun _ => @product F (e_wire 1) (e_wire 2)) b_new) as [[r b]| |] eqn:E; [|vm_compute in E; discriminate|vm_compute in E; discriminate].
    exists r, b. assert (V : next b = 5%nat /\ length (constraints b) = 1%nat) by (unfold bbind in E; cbn in E; inversion E; split; reflexivity).
    split; [|exact V]. apply (C94_circuit F (fun _ => Panic) _ 3 0 (fun _ => product (e_wire 1) (e_wire 2))).
    + intro. apply ex_product.
    + lia.
    + apply u_then; [apply u_wires|intro; apply u_product].
    + exact E.
    + rewrite (proj2 V). reflexivity.
  - assert (T : match @ed_add_expressions F (mkEd 1 5) (e_wire 1, e_wire 2) (e_wire 3, e_wire 4) (mkB 5 [] []) with
                | Ok (_, b) => (new_wires (mkB 5 [] []) b =? 7) && (new_constraints (mkB 5 [] []) b =? 5) | _ => false end = true) by (vm_compute; reflexivity).
    destruct (@ed_add_expressions F (mkEd 1 5) (e_wire 1, e_wire 2) (e_wire 3, e_wire 4) (mkB 5 [] [])) as [[r b]| |]; try discriminate.
    apply andb_prop in T. destruct T as [T1 T2]. apply Z.eqb_eq in T1. apply Z.eqb_eq in T2. exists r, b. auto.
  - destruct (@split F (e_wire 1) (mkB 2 [] [])) as [[r b]| |] eqn:E; [|exfalso|exfalso].
    + exists r, b. split; [reflexivity|]. pose proof (C94_excess F _ _ _ (ex_split (e_wire 1)) _ _ _ E). lia.
    + assert (T : match @split F (e_wire 1) (mkB 2 [] []) with Ok _ => true | _ => false end = true) by (vm_compute; reflexivity). rewrite E in T. discriminate.
    + assert (T : match @split F (e_wire 1) (mkB 2 [] []) with Ok _ => true | _ => false end = true) by (vm_compute; reflexivity). rewrite E in T. discriminate.
Qed.
