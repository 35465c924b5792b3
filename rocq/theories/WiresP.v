(** How many wires a builder method hands out, against the constraints it adds. *)
From Coq Require Import ZArith List Bool Arith Lia.
From Verif Require Import Base FieldM ExprM BuilderM GadgetsM WaksmanM CryptoM CurveM MonoP ArithP PropsBuilder.
Import ListNotations.
Open Scope Z_scope.

(** [m] hands out at most [k] wires more than it adds constraints. *)
Definition pays {A} (k : Z) (m : B A) : Prop := forall b r b', m b = Ok (r, b') ->
  Z.of_nat (next b') + Z.of_nat (length (constraints b)) <= Z.of_nat (next b) + Z.of_nat (length (constraints b')) + k.

Lemma pays_weaken {A} k k' (m : B A) : pays k m -> k <= k' -> pays k' m.
Proof. intros H L b r b' E. specialize (H _ _ _ E). lia. Qed.
Lemma pays_ret {A} (a : A) : pays 0 (bret a).
Proof. intros b r b' E. inversion E. lia. Qed.
Lemma pays_lift {A} (o : outcome A) : pays 0 (blift o).
Proof. intros b r b' E. unfold blift in E. destruct o; inversion E. lia. Qed.
Lemma pays_bind_with {A C} k1 k2 (Q : A -> Prop) (m : B A) (f : A -> B C) : pays k1 m -> (forall b r b', m b = Ok (r, b') -> Q r) ->
  (forall a, Q a -> pays k2 (f a)) -> pays (k1 + k2) (bbind m f).
Proof.
  intros H HQ H2 b r b' E. unfold bbind in E. destruct (m b) as [[a b1]| |] eqn:E1; try discriminate.
  pose proof (H _ _ _ E1). pose proof (H2 a (HQ _ _ _ E1) _ _ _ E). lia.
Qed.
Lemma pays_bind {A C} k1 k2 (m : B A) (f : A -> B C) : pays k1 m -> (forall a, pays k2 (f a)) -> pays (k1 + k2) (bbind m f).
Proof. intros H H2. apply (pays_bind_with k1 k2 (fun _ => True)); auto. Qed.
Lemma pays_lift_bind {A C} k (o : outcome A) (f : A -> B C) : (forall a, o = Ok a -> pays k (f a)) -> pays k (bbind (blift o) f).
Proof.
  intros H b r b' E. unfold bbind, blift in E. destruct o as [a| |]; cbn [obind] in E; try discriminate. exact (H a eq_refl _ _ _ E).
Qed.
Lemma pays_bmap_with {A C} k (P : A -> Prop) (f : A -> B C) l : (forall a, P a -> pays k (f a)) -> Forall P l -> pays (Z.of_nat (length l) * k) (bmap f l).
Proof.
  intros H HP. induction HP as [|a l Ha HP IH]; cbn [bmap length]; [apply pays_ret|].
  replace (Z.of_nat (S (length l)) * k) with (k + (Z.of_nat (length l) * k + 0)) by lia.
  apply pays_bind; [auto|intro]. apply pays_bind; [exact IH|intro; apply pays_ret].
Qed.
Lemma pays_bmap {A C} k (f : A -> B C) l : (forall a, pays k (f a)) -> pays (Z.of_nat (length l) * k) (bmap f l).
Proof. intro H. apply (pays_bmap_with k (fun _ => True)); auto. apply Forall_forall. auto. Qed.
Lemma pays_bfold {A S} k (f : S -> A -> B S) l : (forall s a, pays k (f s a)) -> forall s, pays (Z.of_nat (length l) * k) (bfold f l s).
Proof.
  intros H. induction l as [|a l IH]; intros s; cbn [bfold length]; [apply pays_ret|].
  replace (Z.of_nat (Datatypes.S (length l)) * k) with (k + Z.of_nat (length l) * k) by lia.
  apply pays_bind; auto.
Qed.
Lemma pays_bmap0 {A C} k (f : A -> B C) l : (forall a, pays k (f a)) -> k <= 0 -> pays 0 (bmap f l).
Proof. intros H L. eapply pays_weaken; [apply pays_bmap, H|nia]. Qed.
Lemma pays_bfold0 {A S} k (f : S -> A -> B S) l s : (forall s a, pays k (f s a)) -> k <= 0 -> pays 0 (bfold f l s).
Proof. intros H L. eapply pays_weaken; [apply pays_bfold, H|nia]. Qed.
Lemma pays_if {A} k (c : bool) (m1 m2 : B A) : pays k m1 -> pays k m2 -> pays k (if c then m1 else m2).
Proof. destruct c; auto. Qed.

Lemma pays_wire : pays 1 b_wire.
Proof. intros b r b' E. inversion E. cbn [next constraints]. lia. Qed.
Lemma pays_wires n : pays (Z.of_nat n) (b_wires n).
Proof. unfold b_wires. eapply pays_weaken; [apply pays_bmap; intro; apply pays_wire|]. rewrite seq_length. lia. Qed.
Lemma wires_length n b r b' : b_wires n b = Ok (r, b') -> length r = n.
Proof. intro E. apply bmap_length in E. rewrite E. apply seq_length. Qed.
Lemma pays_generator d run : pays 0 (b_generator d run).
Proof. intros b r b' E. inversion E. cbn [next constraints]. lia. Qed.

Section Gadgets.
Context {F : Field}.

Lemma pays_assert_product x y z : pays (-1) (assert_product x y z).
Proof. intros b r b' E. inversion E. cbn [next constraints]. rewrite app_length. cbn [length]. lia. Qed.

End Gadgets.

Create HintDb pays.
#[export] Hint Resolve pays_ret pays_lift pays_wire pays_wires pays_generator pays_assert_product : pays.
(** Leaves an inequality between the sum of the parts and the claimed bound. *)
Ltac pay_go := lazymatch goal with
  | |- pays _ (bbind (blift _) _) => apply pays_lift_bind; intros ? _; pay_go
  | |- pays _ (bbind _ _) => eapply pays_bind; [pay_go|intro; pay_go]
  | |- pays _ (let '(_, _) := ?p in _) => destruct p; pay_go
  | |- pays _ (if _ then _ else _) => first [solve [eauto 2 with pays]|apply pays_if; [eapply pays_weaken; [pay_go|]|eapply pays_weaken; [pay_go|]]]
  | |- _ => solve [eauto 2 with pays]
  end.
Ltac pay := eapply pays_weaken; [pay_go|lia].

Section Gadgets2.
Context {F : Field}.

Lemma pays_assert_boolean x : pays (-1) (assert_boolean x).
Proof. unfold assert_boolean. pay. Qed.
Lemma pays_assert_equal x y : pays (-1) (assert_equal x y).
Proof. apply pays_assert_product. Qed.
Lemma pays_assert_zero x : pays (-1) (assert_zero x).
Proof. apply pays_assert_product. Qed.
Lemma pays_assert_true x : pays (-1) (assert_true x).
Proof. apply pays_assert_product. Qed.
Lemma pays_assert_false x : pays (-1) (assert_false x).
Proof. apply pays_assert_product. Qed.
Hint Resolve pays_assert_boolean pays_assert_equal pays_assert_zero pays_assert_true pays_assert_false : pays.
Lemma pays_boolean_wire : pays 0 boolean_wire.
Proof. unfold boolean_wire. pay. Qed.
Hint Resolve pays_boolean_wire : pays.
Lemma pays_binary_wire n : pays 0 (binary_wire n).
Proof. unfold binary_wire. eapply pays_bmap0; [intro; apply pays_boolean_wire|lia]. Qed.
Hint Resolve pays_binary_wire : pays.
Lemma pays_product x y : pays 0 (product x y).
Proof.
  unfold product. destruct (e_as_constant x); [apply pays_ret|]. destruct (e_as_constant y); [apply pays_ret|]. pay.
Qed.
Hint Resolve pays_product : pays.
Lemma pays_exponentiation x p : pays 0 (exponentiation x p).
Proof.
  unfold exponentiation. eapply pays_weaken; [eapply pays_bind; [eapply pays_bfold0 with (k := 0); [|lia]|intro; apply pays_ret]|lia].
  intros st i. eapply pays_weaken; [eapply pays_bind; [apply pays_if; auto with pays|intro; eapply pays_bind; [apply pays_if; auto with pays|intro; apply pays_ret]]|lia].
Qed.
Lemma pays_inverse x : pays 0 (inverse x).
Proof. unfold inverse. pay. Qed.
Hint Resolve pays_exponentiation pays_inverse : pays.
Lemma pays_assert_nonzero x : pays 0 (assert_nonzero x).
Proof. unfold assert_nonzero. pay. Qed.
Lemma pays_assert_nonequal x y : pays 0 (assert_nonequal x y).
Proof. apply pays_assert_nonzero. Qed.
Lemma pays_nonzero x : pays 0 (nonzero x).
Proof. unfold nonzero. pay. Qed.
Hint Resolve pays_assert_nonzero pays_nonzero : pays.
Lemma pays_not x : pays 0 (b_not x).
Proof. apply pays_ret. Qed.
Lemma pays_and x y : pays 0 (b_and x y).
Proof. apply pays_product. Qed.
Lemma pays_or x y : pays 0 (b_or x y).
Proof. unfold b_or. pay. Qed.
Lemma pays_xor x y : pays 0 (b_xor x y).
Proof. unfold b_xor. pay. Qed.
Lemma pays_zero x : pays 0 (g_zero x).
Proof. unfold g_zero, b_not. pay. Qed.
Lemma pays_equal x y : pays 0 (g_equal x y).
Proof. apply pays_zero. Qed.
Lemma pays_selection c x y : pays 0 (selection c x y).
Proof. unfold selection. pay. Qed.
Lemma pays_inverse_or_zero x : pays 0 (inverse_or_zero x).
Proof. unfold inverse_or_zero. pay. Qed.
Lemma pays_quotient x y : pays 0 (quotient x y).
Proof. unfold quotient. pay. Qed.
Lemma pays_quotient_unsafe x y : pays 1 (quotient_unsafe x y).
Proof. unfold quotient_unsafe. pay. Qed.
Lemma pays_swrc x n : pays (-1) (split_without_range_check x n).
Proof. unfold split_without_range_check. cbv zeta. pay. Qed.
Hint Resolve pays_not pays_and pays_or pays_xor pays_zero pays_equal pays_selection pays_inverse_or_zero pays_quotient pays_quotient_unsafe pays_swrc : pays.
Lemma pays_split_allowing_ambiguity x : pays (-1) (split_allowing_ambiguity x).
Proof. apply pays_swrc. Qed.
Lemma pays_split_bounded x n : pays (-1) (split_bounded x n).
Proof. unfold split_bounded. pay. Qed.
Hint Resolve pays_split_allowing_ambiguity pays_split_bounded : pays.
Lemma pays_cmp_subtractive d less strict n : pays (-1) (cmp_subtractive d less strict n).
Proof. unfold cmp_subtractive. cbv zeta. pay. Qed.
Hint Resolve pays_cmp_subtractive : pays.
Lemma pays_cmp_binary x y less strict : pays (-2) (cmp_binary x y less strict).
Proof.
  unfold cmp_binary. cbv zeta. do 3 (apply pays_lift_bind; intros ? _).
  eapply pays_weaken.
  - eapply pays_bind_with; [apply pays_wires|apply wires_length|]. intros mask Hm.
    apply pays_weaken with (k := - Z.of_nat (length mask) - 2); [|rewrite Hm; reflexivity]. eapply pays_weaken.
    + eapply pays_bind; [apply pays_bmap; intro; apply pays_assert_boolean|intro].
      eapply pays_bind; [apply pays_assert_boolean|intro]. eapply pays_bind; [apply pays_generator|intro].
      eapply pays_bind. { eapply pays_bfold0 with (k := 0); [|lia]. intros. pay. }
      intro. apply pays_lift_bind; intros ? _.
      eapply pays_bind. { eapply pays_bfold0 with (k := -1); [|lia]. intros. pay. }
      intro. eapply pays_bind; [apply pays_if with (k := 0); [apply pays_ret|pay]|intro]. apply pays_cmp_subtractive.
    + lia.
  - lia.
Qed.
Hint Resolve pays_cmp_binary : pays.
Lemma pays_assert_lt_binary x y : pays (-3) (assert_lt_binary x y).
Proof. unfold assert_lt_binary, lt_binary. pay. Qed.
Lemma pays_assert_le_binary x y : pays (-3) (assert_le_binary x y).
Proof. unfold assert_le_binary, le_binary. pay. Qed.
Lemma pays_assert_gt_binary x y : pays (-3) (assert_gt_binary x y).
Proof. unfold assert_gt_binary, gt_binary. pay. Qed.
Lemma pays_assert_ge_binary x y : pays (-3) (assert_ge_binary x y).
Proof. unfold assert_ge_binary, ge_binary. pay. Qed.
Hint Resolve pays_assert_lt_binary pays_assert_le_binary pays_assert_gt_binary pays_assert_ge_binary : pays.
Lemma pays_split x : pays (-4) (split x).
Proof. unfold split. pay. Qed.
Hint Resolve pays_split : pays.
Lemma pays_cmp x y less strict : pays (-7) (cmp x y less strict).
Proof. unfold cmp. destruct less; pay. Qed.
Hint Resolve pays_cmp : pays.
Lemma pays_assert_lt x y : pays (-8) (assert_lt x y).
Proof. unfold assert_lt, lt. pay. Qed.
Lemma pays_assert_le x y : pays (-8) (assert_le x y).
Proof. unfold assert_le, le. pay. Qed.
Lemma pays_assert_gt x y : pays (-8) (assert_gt x y).
Proof. unfold assert_gt, gt. pay. Qed.
Lemma pays_assert_ge x y : pays (-8) (assert_ge x y).
Proof. unfold assert_ge, ge. pay. Qed.
Hint Resolve pays_assert_lt pays_assert_le pays_assert_gt pays_assert_ge : pays.
Lemma pays_modulus x y : pays (-7) (modulus x y).
Proof. unfold modulus. pay. Qed.
Hint Resolve pays_modulus : pays.
Lemma pays_divides x y : pays (-7) (divides x y).
Proof. unfold divides. pay. Qed.

Lemma pays_binary_summation ts : pays (-1) (binary_summation ts).
Proof. unfold binary_summation. cbv zeta. pay. Qed.
Hint Resolve pays_binary_summation : pays.
Lemma pays_binary_summation_ignoring_overflow ts : pays (-1) (binary_summation_ignoring_overflow ts).
Proof. unfold binary_summation_ignoring_overflow. pay. Qed.
Lemma pays_binary_assert_zero x : pays 0 (binary_assert_zero x).
Proof.
  unfold binary_assert_zero. do 2 (apply pays_lift_bind; intros ? _).
  eapply pays_weaken; [eapply pays_bind; [eapply pays_bmap0 with (k := -1); [intro; pay|lia]|intro; apply pays_ret]|lia].
Qed.
Hint Resolve pays_binary_assert_zero : pays.
Lemma pays_binary_summation_asserting_no_overflow ts : pays (-1) (binary_summation_asserting_no_overflow ts).
Proof. unfold binary_summation_asserting_no_overflow. pay. Qed.
Lemma pays_bitwise_not x : pays 0 (bitwise_not x).
Proof. unfold bitwise_not. eapply pays_bmap0; [intro; apply pays_not|lia]. Qed.
Lemma pays_bitwise2 op x y : (forall a b, pays 0 (op a b)) -> pays 0 (bitwise2 op x y).
Proof.
  intro H. unfold bitwise2. apply pays_lift_bind; intros ? _. eapply pays_bmap0 with (k := 0); [|lia]. intro.
  do 2 (apply pays_lift_bind; intros ? _). apply H.
Qed.
Lemma pays_rotate_inc x n : pays 0 (rotate_inc x n).
Proof. unfold rotate_inc. cbv zeta. eapply pays_bmap0 with (k := 0); [intro; pay|lia]. Qed.
Lemma pays_rotate_dec x n : pays 0 (rotate_dec x n).
Proof. unfold rotate_dec. cbv zeta. eapply pays_bmap0 with (k := 0); [intro; pay|lia]. Qed.
Lemma pays_shift_inc x n : pays 0 (shift_inc x n).
Proof. unfold shift_inc. eapply pays_bmap0 with (k := 0); [intro i; destruct (i <? n)%nat; pay|lia]. Qed.
Lemma pays_shift_dec x n : pays 0 (shift_dec x n).
Proof. unfold shift_dec. cbv zeta. eapply pays_bmap0 with (k := 0); [intro i|lia]. apply pays_lift_bind; intros d _. destruct (i <? d)%nat; pay. Qed.
Lemma pays_select_pairs lsb : forall n items, (length items <= n)%nat -> pays 0 (select_pairs lsb items).
Proof.
  induction n as [|n IH]; intros [|x [|y r]] L; cbn [length] in L; try lia; try apply pays_ret.
  change (select_pairs lsb (x :: y :: r)) with (s <- selection lsb y x ;; ss <- select_pairs lsb r ;; bret (s :: ss)).
  eapply pays_weaken; [eapply pays_bind; [apply pays_selection|intro; eapply pays_bind; [apply IH; lia|intro; apply pays_ret]]|lia].
Qed.
Lemma pays_random_access_binary : forall bits items, pays 0 (random_access_binary items bits).
Proof.
  induction bits as [|lsb bits IH]; intros items; destruct items as [|x [|y r]]; cbn [random_access_binary]; try (pay).
  eapply pays_weaken; [eapply pays_bind; [eapply pays_select_pairs; reflexivity|intro; apply IH]|lia].
Qed.
Hint Resolve pays_random_access_binary : pays.
Lemma pays_random_access items i : pays (-1) (random_access items i).
Proof. unfold random_access. pay. Qed.

Lemma pays_create_switch x y : pays 0 (create_switch x y).
Proof. unfold create_switch. pay. Qed.
Hint Resolve pays_create_switch : pays.
Lemma pays_2x2 a b c d : pays 0 (assert_permutation_2x2 a b c d).
Proof.
  unfold assert_permutation_2x2. eapply pays_weaken; [eapply pays_bind; [apply pays_create_switch|intros [[sw ct] dt]; pay_go]|lia].
Qed.
Lemma pays_switch_layer l n : pays 0 (switch_layer l n).
Proof. unfold switch_layer. eapply pays_bmap0 with (k := 0); [intro; pay|lia]. Qed.
Lemma pays_assert_permutation_fuel : forall fuel a b, pays 0 (assert_permutation_fuel fuel a b).
Proof.
  induction fuel as [|f IH]; intros a b; [apply pays_lift|]. cbn [assert_permutation_fuel].
  apply pays_lift_bind; intros ? _.
  assert (G : forall a b, pays 0 (let n := length a in
      let even := Nat.even n in
      let a_num_switches := (n / 2)%nat in
      let b_num_switches := (if even then a_num_switches - 1 else a_num_switches)%nat in
      las <- switch_layer a a_num_switches ;;
      lbs <- switch_layer b b_num_switches ;;
      let child_1_a := map (fun s => snd (fst s)) las in
      let child_2_a := map snd las in
      let child_1_b := map (fun s => snd (fst s)) lbs in
      let child_2_b := map snd lbs in
      '(c1a, c1b, c2a, c2b) <-
        (if even then
           x <- blift (oindex b (n - 2)) ;;
           y <- blift (oindex b (n - 1)) ;;
           bret (child_1_a, child_1_b ++ [x], child_2_a, child_2_b ++ [y])
         else
           x <- blift (oindex a (n - 1)) ;;
           y <- blift (oindex b (n - 1)) ;;
           bret (child_1_a, child_1_b, child_2_a ++ [x], child_2_b ++ [y])) ;;
      assert_permutation_fuel f c1a c1b ;;
      assert_permutation_fuel f c2a c2b ;;
      b_generator (flat_map e_deps a ++ flat_map e_deps b) (fun v =>
        let! a_values := omap (e_evaluate v) a in
        let! b_values := omap (e_evaluate v) b in
        route a_values b_values (map (fun s => fst (fst s)) las) (map (fun s => fst (fst s)) lbs) v))).
  { clear a b. intros a b. cbv zeta. eapply pays_weaken.
    - eapply pays_bind; [apply pays_switch_layer|intro]. eapply pays_bind; [apply pays_switch_layer|intro].
      eapply pays_bind; [apply pays_if with (k := 0); [pay|pay]|]. intros [[[c1a c1b] c2a] c2b].
      eapply pays_bind; [apply IH|intro]. eapply pays_bind; [apply IH|intro]. apply pays_generator.
    - lia. }
  destruct a as [|x1 [|x2 [|x3 a]]]; destruct b as [|y1 [|y2 b]]; try apply G; try apply pays_ret;
    try (eapply pays_weaken; [apply pays_assert_equal|lia]); try apply pays_2x2.
Qed.
Lemma pays_assert_permutation a b : pays 0 (assert_permutation a b).
Proof. apply pays_assert_permutation_fuel. Qed.
Lemma pays_sort_ascending l : pays (-3) (sort_ascending l).
Proof.
  unfold sort_ascending. cbv zeta. eapply pays_weaken.
  - eapply pays_bind_with; [apply pays_wires|apply wires_length|]. intros ws Hw.
    eapply pays_bind; [apply pays_assert_permutation|intro].
    apply pays_lift_bind with (k := - Z.of_nat (length l) - 3). intros n1 En.
    unfold osub in En. destruct (1 <=? length l)%nat eqn:L; try discriminate. apply Nat.leb_le in L. inversion En; subst n1. clear En.
    eapply pays_weaken.
    + eapply pays_bind; [apply pays_bmap; intro; apply pays_split_allowing_ambiguity|intro].
      apply pays_lift_bind; intros ? _.
      eapply pays_bind; [apply pays_split|intro].
      eapply pays_bind; [eapply pays_bmap0 with (k := -3); [intro; pay|lia]|intro]. pay_go.
    + rewrite firstn_length, map_length, Hw. lia.
  - lia.
Qed.
Hint Resolve pays_sort_ascending : pays.
Lemma pays_sort_descending l : pays (-3) (sort_descending l).
Proof. unfold sort_descending. pay. Qed.

(** ** Cryptography: bounds for the parts give bounds for the constructions. *)
Lemma pays_monomial_inverse n x : pays 0 (monomial_inverse n x).
Proof. unfold monomial_inverse. pay. Qed.
Lemma pays_monomial n x : pays 0 (permute (monomial n) x).
Proof. apply pays_exponentiation. Qed.
Lemma pays_monomial_inv n x : pays 0 (p_inverse (monomial n) x).
Proof. apply pays_monomial_inverse. Qed.
Lemma pays_mimc_encrypt cs n key x : pays 0 (mimc_encrypt cs (monomial n) key x).
Proof.
  unfold mimc_encrypt. eapply pays_weaken.
  - eapply pays_bind; [apply pays_monomial|intro]. eapply pays_bind; [eapply pays_bfold0 with (k := 0); [intros; apply pays_monomial|lia]|intro]. apply pays_ret.
  - lia.
Qed.
Lemma pays_mimc_decrypt cs n key x : pays 0 (mimc_decrypt cs (monomial n) key x).
Proof.
  unfold mimc_decrypt. eapply pays_weaken.
  - eapply pays_bind; [eapply pays_bfold0 with (k := 0); [intros|lia]|intro].
    + eapply pays_weaken; [eapply pays_bind; [apply pays_monomial_inv|intro; apply pays_ret]|lia].
    + eapply pays_bind; [apply pays_monomial_inv|intro; apply pays_ret].
  - lia.
Qed.
Lemma pays_davies_meyer c k x y : (forall k' i, pays k (encrypt c k' i)) -> pays k (davies_meyer c x y).
Proof. intro H. unfold davies_meyer. eapply pays_weaken; [eapply pays_bind; [apply H|intro; apply pays_ret]|lia]. Qed.
Lemma pays_miyaguchi_preneel c k x y : (forall k' i, pays k (encrypt c k' i)) -> pays k (miyaguchi_preneel c x y).
Proof. intro H. unfold miyaguchi_preneel. eapply pays_weaken; [eapply pays_bind; [apply H|intro; apply pays_ret]|lia]. Qed.
Lemma pays_merkle_damgard iv m k blocks : (forall x y, pays k (m x y)) -> pays (Z.of_nat (S (length blocks)) * k) (merkle_damgard iv m blocks).
Proof.
  intro H. unfold merkle_damgard. eapply pays_weaken.
  - eapply pays_bind; [apply pays_bfold; intros; apply H|intro]. apply pays_lift_bind; intros ? _. apply H.
  - lia.
Qed.
Lemma pays_merkle_tree_root m k leaf path : (forall x y, pays k (m x y)) -> 0 <= k ->
  pays (Z.of_nat (length (siblings path)) * k) (merkle_tree_root m leaf path).
Proof.
  intros H L. unfold merkle_tree_root, merkle_tree_step. eapply pays_weaken.
  - apply pays_bfold with (k := k). intros. eapply pays_weaken; [eapply pays_bind; [apply pays_selection|intro; apply H]|lia].
  - rewrite combine_length. nia.
Qed.
Lemma pays_membership m k leaf root path : (forall x y, pays k (m x y)) -> 0 <= k ->
  pays (Z.of_nat (length (siblings path)) * k) (assert_merkle_tree_membership m leaf root path).
Proof.
  intros H L. unfold assert_merkle_tree_membership. eapply pays_weaken.
  - eapply pays_bind; [apply pays_merkle_tree_root; eassumption|intro; apply pays_assert_equal].
  - lia.
Qed.
Lemma pays_sponge_step sp k input cap : (forall xs, pays k (mp_permute (sp_perm sp) xs)) -> pays k (sponge_step sp input cap).
Proof.
  intro H. unfold sponge_step. cbv zeta. eapply pays_weaken; [eapply pays_bind; [apply H|intro]|].
  - do 2 (apply pays_lift_bind; intros ? _). apply pays_ret.
  - lia.
Qed.
Lemma pays_sponge_squeeze sp k n : (forall xs, pays k (mp_permute (sp_perm sp) xs)) -> k <= 0 ->
  forall fuel input cap outputs, pays 0 (sponge_squeeze fuel sp input cap outputs n).
Proof.
  intros H L. induction fuel as [|f IH]; intros input cap outputs; cbn [sponge_squeeze]; destruct (length outputs <? n)%nat;
    try apply pays_ret; [apply pays_lift|]. eapply pays_weaken; [eapply pays_bind; [apply pays_sponge_step; exact H|intros [i c]; apply IH]|lia].
Qed.
Lemma pays_sponge_evaluate sp inputs n : (forall xs, pays 0 (mp_permute (sp_perm sp) xs)) -> pays 0 (sponge_evaluate sp inputs n).
Proof.
  intro H. unfold sponge_evaluate. apply pays_lift_bind; intros ? _. eapply pays_weaken.
  - eapply pays_bind.
    + eapply pays_bfold0 with (k := 0); [|lia]. intros. apply pays_lift_bind; intros ? _. apply pays_sponge_step, H.
    + intros [i c]. eapply pays_bind; [eapply pays_sponge_squeeze; [exact H|lia]|intro; apply pays_ret].
  - lia.
Qed.
Lemma pays_sbox sb x : pays 0 (sbox_permute sb x).
Proof.
  unfold sbox_permute. apply pays_lift_bind. intros p E. apply sbox_forms in E. destruct E as [->|[n ->]]; [apply pays_inverse_or_zero|apply pays_monomial].
Qed.
Lemma pays_poseidon p xs : pays 0 (poseidon_permute p xs).
Proof.
  unfold poseidon_permute. do 2 (apply pays_lift_bind; intros ? _). eapply pays_bfold0 with (k := 0); [|lia]. intros st r.
  eapply pays_weaken; [eapply pays_bind; [|intro; apply pays_ret]|].
  - apply pays_if with (k := 0).
    + eapply pays_bmap0; [apply pays_sbox|lia].
    + destruct st; cbn [update_first]; [apply pays_lift|]. eapply pays_weaken; [eapply pays_bind; [apply pays_sbox|intro; apply pays_ret]|lia].
  - lia.
Qed.
Lemma pays_rescue r xs : pays 0 (rescue_permute r xs).
Proof.
  unfold rescue_permute. eapply pays_bfold0 with (k := 0); [|lia]. intros st i. eapply pays_weaken.
  - eapply pays_bind; [eapply pays_bmap0 with (k := 0); [|lia]|intro; eapply pays_bind; [eapply pays_bmap0 with (k := 0); [|lia]|intro; apply pays_ret]].
    + intro. unfold rescue_pi1. apply pays_lift_bind; intros ? _. apply pays_monomial.
    + intro. unfold rescue_pi2. apply pays_lift_bind; intros ? _. apply pays_monomial_inv.
  - lia.
Qed.

(** ** Curves. *)
Lemma pays_ed_expr_new C x y : pays (-1) (ed_expr_new C x y).
Proof. unfold ed_expr_new. pay. Qed.
Lemma pays_ed_add C l r : pays 2 (ed_add_expressions C l r).
Proof. unfold ed_add_expressions. destruct l, r. pay. Qed.
Lemma pays_ed_double C p : pays 2 (ed_double_expression C p).
Proof. unfold ed_double_expression. destruct p. pay. Qed.
Lemma pays_mul_boolean C p b : pays 0 (mul_boolean_expression (edwards_group C) p b).
Proof.
  unfold mul_boolean_expression. apply pays_lift_bind; intros ? _. eapply pays_weaken.
  - eapply pays_bind; [eapply pays_bmap0 with (k := 0); [|lia]|intro; apply pays_lift]. intro. apply pays_lift_bind; intros ? _. apply pays_selection.
  - lia.
Qed.
Lemma saa_length x b r b' : split_allowing_ambiguity x b = Ok (r, b') -> length r = max_bits.
Proof.
  unfold split_allowing_ambiguity, split_without_range_check. cbv zeta. intro E. unfold bbind at 1 in E.
  destruct (binary_wire max_bits b) as [[ws b1]| |] eqn:E1; try discriminate.
  unfold binary_wire in E1. apply bmap_length in E1. rewrite seq_length in E1.
  unfold bbind, blift, assert_equal, assert_product, b_generator, bret in E.
  destruct (bin_join_allowing_overflow (bin_of_wires ws)); cbn [obind] in E; try discriminate. inversion E; subst.
  unfold bin_of_wires. rewrite map_length. exact E1.
Qed.
Lemma pays_mul_scalar C p e : pays (4 * Z.of_nat max_bits - 1) (mul_scalar_expression (edwards_group C) p e).
Proof.
  unfold mul_scalar_expression. eapply pays_weaken.
  - eapply pays_bind_with; [apply pays_split_allowing_ambiguity|intros ? ? ?; apply saa_length|]. intros bits Hb.
    apply pays_lift_bind; intros ? _. eapply pays_bind; [|intro; apply pays_ret]. eapply pays_weaken; [apply pays_bfold with (k := 4)|rewrite Hb; reflexivity].
    intros st bit. eapply pays_weaken.
    + eapply pays_bind; [apply pays_mul_boolean|intro]. eapply pays_bind; [apply pays_ed_add|intro]. eapply pays_bind; [apply pays_ed_double|intro]. apply pays_ret.
    + lia.
  - lia.
Qed.
Lemma pays_schnorr C gen sg msg pk (m : compression) k : (forall x y, pays k (m x y)) ->
  pays (8 * Z.of_nat max_bits - 1 + k) (schnorr_verify (mkCyclic (edwards_group C) gen) sg msg pk m).
Proof.
  intro H. unfold schnorr_verify. cbn [cg_group]. apply pays_lift_bind; intros ? _. eapply pays_weaken.
  - eapply pays_bind; [apply pays_mul_scalar|intro]. eapply pays_bind; [apply pays_mul_scalar|intro].
    eapply pays_bind; [apply pays_ed_add|intro]. eapply pays_bind; [apply H|intro]. apply pays_assert_equal.
  - lia.
Qed.
End Gadgets2.
